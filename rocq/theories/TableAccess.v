(** A locked bucket: its place in the table, and what replacing its contents does to the table. *)
From Coq Require Import NArith Lia.
From stdpp Require Import numbers prelude list.
From Verif Require CapModel CapSpec CapFacts CapThms.
From Verif Require Import LruModel BucketModel BucketSpec BucketFacts BucketOps BucketOps2 BucketOps3
  TableModel TableSpec TableFacts TableReloc TableHouse TableResize.

Section access.
Context {K V : Type} `{EqDecision K}.
Context (hash : K -> N).
Context (Hh : forall k, (hash k < 2 ^ 64)%N).
Implicit Types (a c o : barray K V) (x : cell K V) (tb : table K V) (b : bucket K V) (l : loc).

(** [b] is the content of the locked bucket at [l], the only place for the keys that belong there. *)
Definition owns tb l b : Prop :=
  match l.1 with
  | Cur => exists c x, cur tb = Some c /\ cell_at c l.2 = Some x /\ bkt x = b /\ ready hash tb l.2
  | Old => exists o x, old tb = Some o /\ cell_at o l.2 = Some x /\ bkt x = b /\ dead x = false /\
      forall t c e, cur tb = Some c -> e ∈ aents t c -> CapModel.bucket_index (sz o) (hash e.1) <> l.2
  end.
(** Key [k] belongs to the bucket at [l]. *)
Definition lkey tb l (k : K) : Prop :=
  exists a, loc_array tb l.1 = Some a /\ CapModel.bucket_index (sz a) (hash k) = l.2.

Lemma owns_lock t tb l b : wf_table hash t tb -> owns tb l b -> lock tb l = Some b /\ wf_bucket hash t b.
Proof.
  intros W O. unfold lock, loc_cell. destruct l as [[] i]; cbn [owns fst snd] in O; cbn [fst snd loc_array].
  - destruct O as (c & x & C & X & <- & _). rewrite C, obind, X, obind.
    destruct (wf_tab_cur _ _ _ _ W C) as (Wc & Al & _). rewrite (Al _ _ X). split; [done|].
    pose proof (wa_cells _ _ _ Wc _ _ X) as Wx. split; [apply Wx|]. apply Wx. by eapply Al.
  - destruct O as (o & x & Eo & X & <- & D & _). rewrite Eo, obind, X, obind, D. split; [done|].
    destruct (cur tb) as [c|] eqn:C.
    2:{ pose proof (wf_tab_none _ _ _ W C). congruence. }
    destruct (wf_tab_pair _ _ _ _ _ W C Eo) as (WP & _).
    pose proof (wa_cells _ _ _ (wp_old _ _ _ _ WP) _ _ X) as Wx. split; [apply Wx|]. by apply Wx.
Qed.

Lemma perm3 {A} (x ro rc : list A) : ro ++ x ++ rc ≡ₚ x ++ ro ++ rc.
Proof. rewrite !app_assoc. apply Permutation_app_tail, Permutation_app_comm. Qed.

Record put_back t tb l R RS b' tb' : Prop := PutBack {
  pb_set : set_loc tb l b' = Some tb';
  pb_wf : wf_table hash t tb';
  pb_ents : tents t tb' ≡ₚ entries t b' ++ R;
  pb_stored : tstored tb' ≡ₚ stored b' ++ RS;
  pb_owns : owns tb' l b';
  pb_lkey : forall k, lkey tb' l k <-> lkey tb l k;
  pb_rel : released tb' = released tb;
  pb_garb : garbage tb' = garbage tb;
  pb_mst : mst tb' = mst tb;
  pb_max : maxcap tb' = maxcap tb;
  pb_old : l.1 = Cur -> old tb' = old tb;
  pb_other : forall c i y, l = (Cur, i) -> cur tb = Some c -> cell_at c i = Some y ->
     cur tb' = Some (set_cell c i (Cell b' (dead y))) }.

Lemma owns_lkey t tb l b e : wf_table hash t tb -> owns tb l b -> e ∈ entries t b -> lkey tb l e.1.
Proof.
  intros W O He. destruct l as [[] i]; cbn [owns fst snd] in O; unfold lkey; cbn [fst snd loc_array].
  - destruct O as (c & x & C & X & <- & _). destruct (wf_tab_cur _ _ _ _ W C) as (Wc & _).
    exists c. split; [done|]. rewrite (wa_place _ _ _ Wc _ _ _ X He). lia.
  - destruct O as (o & x & Eo & X & <- & D & _). destruct (cur tb) as [c|] eqn:C.
    2:{ pose proof (wf_tab_none _ _ _ W C). congruence. }
    destruct (wf_tab_pair _ _ _ _ _ W C Eo) as (WP & _).
    exists o. split; [done|]. rewrite (wa_place _ _ _ (wp_old _ _ _ _ WP) _ _ _ X He). lia.
Qed.

Lemma rest_place t a i x e : wf_array hash t a -> cell_at a i = Some x ->
  e ∈ rest (fun x => entries t (bkt x)) (bks a) (N.to_nat i) -> CapModel.bucket_index (sz a) (hash e.1) <> i.
Proof.
  intros W X He Hi. unfold rest in He. rewrite elem_of_app in He. destruct He as [He|He].
  - apply (elem_of_concat_map (fun x => entries t (bkt x))) in He as (j & y & Hy & He).
    pose proof (lookup_lt_Some _ _ _ Hy) as Lj. rewrite take_length in Lj. rewrite lookup_take in Hy by lia.
    rewrite (wa_place _ _ _ W _ _ _ Hy He) in Hi. lia.
  - apply (elem_of_concat_map (fun x => entries t (bkt x))) in He as (j & y & Hy & He).
    rewrite lookup_drop in Hy. rewrite (wa_place _ _ _ W _ _ _ Hy He) in Hi. lia.
Qed.

Lemma keys_glue {A B} (p q : list (A * B)) (P : A -> Prop) : NoDup p.*1 -> NoDup q.*1 ->
  (forall e, e ∈ p -> P e.1) -> (forall e, e ∈ q -> ~ P e.1) -> NoDup (p ++ q).*1.
Proof.
  intros N1 N2 Hp Hq. rewrite fmap_app. apply NoDup_app. split; [done|]. split; [|done].
  intros k (e1 & -> & H1)%elem_of_list_fmap (e2 & E & H2)%elem_of_list_fmap.
  apply (Hq e2 H2). rewrite <- E. by apply Hp.
Qed.

(** Splitting off a locked bucket. *)
Lemma owns_split t tb l b : wf_table hash t tb -> owns tb l b ->
  exists R RS, tents t tb ≡ₚ entries t b ++ R /\ tstored tb ≡ₚ stored b ++ RS /\
    (forall e, e ∈ R -> ~ lkey tb l e.1) /\
    forall b', wf_bucket hash t b' -> (forall e, e ∈ entries t b' -> lkey tb l e.1) ->
      NoDup (entries t b').*1 -> exists tb', put_back t tb l R RS b' tb'.
Proof.
  intros W Ow. pose proof (wt_keys _ _ _ W) as ND.
  destruct l as [[] i]; cbn [owns fst snd] in Ow.
  - destruct Ow as (c & x & C & X & <- & Rd). destruct (wf_tab_cur _ _ _ _ W C) as (Wc & Al & Z).
    set (Rc := rest (fun x => entries t (bkt x)) (bks c) (N.to_nat i)).
    set (Sc := rest (fun x => stored (bkt x)) (bks c) (N.to_nat i)).
    exists (oents t (old tb) ++ Rc), (ostored (old tb) ++ Sc ++ concat (map astored (garbage tb))).
    assert (TE : tents t tb ≡ₚ entries t (bkt x) ++ oents t (old tb) ++ Rc).
    { unfold tents. rewrite C. cbn [oents]. rewrite (aents_split t c i x X). apply perm3. }
    assert (TS : tstored tb ≡ₚ stored (bkt x) ++ ostored (old tb) ++ Sc ++ concat (map astored (garbage tb))).
    { unfold tstored. rewrite C. cbn [ostored]. rewrite (astored_split c i x X), <- app_assoc. apply perm3. }
    split; [exact TE|]. split; [exact TS|].
    assert (Nk : forall e, e ∈ oents t (old tb) ++ Rc -> ~ lkey tb (Cur, i) e.1).
    { intros e He (a & Ea & Hi). cbn [fst snd loc_array] in Ea, Hi. assert (a = c) as -> by congruence.
      apply elem_of_app in He as [He|He].
      - by apply (ready_ents hash t tb c i e W Rd C He).
      - by apply (rest_place t c i x e Wc X He). }
    split; [exact Nk|].
    intros b' Wb Kb NDb. pose proof (cell_at_lt _ _ _ X) as Li.
    set (c' := set_cell c i (Cell b' (dead x))).
    assert (Xd : dead x = false) by (by eapply Al).
    assert (Wc' : wf_array hash t c').
    { apply wf_set_cell; [done| |].
      - split; cbn [bkt dead]; [apply Wb|congruence|intros _; apply Wb].
      - cbn [bkt]. intros e He. destruct (Kb e He) as (a & Ea & Hi). cbn [fst snd loc_array] in Ea, Hi.
        assert (a = c) as -> by congruence. unfold bi. by rewrite Hi. }
    assert (Al' : forall j y, bks c' !! j = Some y -> dead y = false).
    { intros j y Hy. destruct (set_cell_lookup _ _ _ _ _ _ X Hy) as [[_ ->]|[_ Hy']]; [done|by eapply Al]. }
    assert (AE : aents t c' ≡ₚ entries t b' ++ Rc) by exact (aents_set t c i x _ X).
    assert (AS : astored c' ≡ₚ stored b' ++ Sc) by exact (astored_set c i x _ X).
    assert (X' : cell_at c' i = Some (Cell b' (dead x))) by (by apply list_lookup_insert).
    assert (TE' : tents t (with_cur tb (Some c')) ≡ₚ entries t b' ++ oents t (old tb) ++ Rc).
    { unfold tents. cbn [with_cur cur old oents]. rewrite AE. apply perm3. }
    exists (with_cur tb (Some c')). split; try done.
    + unfold set_loc. cbn [fst snd loc_array]. by rewrite C, obind, X, obind.
    + split; cbn [with_cur cur old mst maxcap garbage].
      * destruct (old tb) as [o|] eqn:O; [|done].
        destruct (wf_tab_pair _ _ _ _ _ W C O) as (WP & WR & _). split; [|done].
        split; [done|apply WP|done|]. intros Ht j y e Hy Dy He Hj.
        rewrite AE in He. apply elem_of_app in He as [He|He].
        -- destruct (Kb e He) as (a & Ea & Hi). cbn [fst snd loc_array] in Ea, Hi. assert (a = c) as -> by congruence.
           assert (dead y = true) by (apply (Rd c o e.1 y C O Hi); unfold bi; rewrite Hj; by rewrite Nat2N.id). congruence.
        -- apply (wp_sep _ _ _ _ WP Ht j y e Hy Dy); [|done]. rewrite (aents_split t c i x X). apply elem_of_app. by right.
      * intros c2 [= <-]. exact (wt_size _ _ _ W c C).
      * apply W.
      * apply W.
      * rewrite TE'. apply (keys_glue _ _ (lkey tb (Cur, i))); [done| |done|done].
        rewrite TE, fmap_app in ND. by apply NoDup_app in ND as (_ & _ & ?).
      * by apply (wf_min_eq tb); [apply W|..].
    + unfold tstored. cbn [with_cur cur old garbage ostored]. rewrite AS, <- app_assoc. apply perm3.
    + exists c', (Cell b' (dead x)). split; [done|]. split; [done|]. split; [done|].
      intros c2 o2 k z. cbn [with_cur cur old snd]. intros [= <-]. exact (Rd c o2 k z C).
    + intros k. unfold lkey. cbn [fst snd loc_array with_cur cur]. rewrite C.
      split; intros (a & [= <-] & Hi); eauto.
    + intros c2 i2 y [= <-] C2 Y. assert (c2 = c) as -> by congruence. by assert (y = x) as -> by congruence.
  - destruct Ow as (o & x & O & X & <- & Dx & Sep). destruct (cur tb) as [c|] eqn:C.
    2:{ pose proof (wf_tab_none _ _ _ W C). congruence. }
    destruct (wf_tab_pair _ _ _ _ _ W C O) as (WP & WR & Z). pose proof (wp_old _ _ _ _ WP) as Wo.
    set (Ro := rest (fun x => entries t (bkt x)) (bks o) (N.to_nat i)).
    set (So := rest (fun x => stored (bkt x)) (bks o) (N.to_nat i)).
    exists (Ro ++ aents t c), (So ++ astored c ++ concat (map astored (garbage tb))).
    assert (TE : tents t tb ≡ₚ entries t (bkt x) ++ Ro ++ aents t c).
    { unfold tents. rewrite C, O. cbn [oents]. by rewrite (aents_split t o i x X), <- app_assoc. }
    assert (TS : tstored tb ≡ₚ stored (bkt x) ++ So ++ astored c ++ concat (map astored (garbage tb))).
    { unfold tstored. rewrite C, O. cbn [ostored]. by rewrite (astored_split o i x X), <- app_assoc. }
    split; [exact TE|]. split; [exact TS|].
    assert (Nk : forall e, e ∈ Ro ++ aents t c -> ~ lkey tb (Old, i) e.1).
    { intros e He (a & Ea & Hi). cbn [fst snd loc_array] in Ea, Hi. assert (a = o) as -> by congruence.
      apply elem_of_app in He as [He|He].
      - by apply (rest_place t o i x e Wo X He).
      - by apply (Sep t c e). }
    split; [exact Nk|].
    intros b' Wb Kb NDb. pose proof (cell_at_lt _ _ _ X) as Li.
    set (o' := set_cell o i (Cell b' (dead x))).
    assert (Wo' : wf_array hash t o').
    { apply wf_set_cell; [done| |].
      - split; cbn [bkt dead]; [apply Wb|congruence|intros _; apply Wb].
      - cbn [bkt]. intros e He. destruct (Kb e He) as (a & Ea & Hi). cbn [fst snd loc_array] in Ea, Hi.
        assert (a = o) as -> by congruence. unfold bi. by rewrite Hi. }
    assert (AE : aents t o' ≡ₚ entries t b' ++ Ro) by exact (aents_set t o i x _ X).
    assert (AS : astored o' ≡ₚ stored b' ++ So) by exact (astored_set o i x _ X).
    assert (X' : cell_at o' i = Some (Cell b' (dead x))) by (by apply list_lookup_insert).
    assert (TE' : tents t (with_old tb (Some o')) ≡ₚ entries t b' ++ Ro ++ aents t c).
    { unfold tents. cbn [with_old cur old oents]. rewrite C. cbn [oents]. by rewrite AE, <- app_assoc. }
    exists (with_old tb (Some o')). split; try done.
    + unfold set_loc. cbn [fst snd loc_array]. by rewrite O, obind, X, obind.
    + split; cbn [with_old cur old mst maxcap garbage].
      * rewrite C. split; [|split; [|done]].
        -- split; [apply WP|done|apply WP|]. intros Ht j y e Hy Dy He.
           destruct (set_cell_lookup _ _ _ _ _ _ X Hy) as [[-> ->]|[_ Hy']].
           ++ by apply (wp_sep _ _ _ _ WP Ht _ x e).
           ++ by apply (wp_sep _ _ _ _ WP Ht _ y e).
        -- split; [apply WR|apply WR|]. intros j y Hj Hy.
           destruct (set_cell_lookup _ _ _ _ _ _ X Hy) as [[-> ->]|[_ Hy']].
           ++ cbn [dead]. by apply (wr_dead _ WR (N.to_nat i) x).
           ++ by apply (wr_dead _ WR j y).
      * apply W.
      * intros o2 [= <-]. exact (wt_osize _ _ _ W o O).
      * apply W.
      * rewrite TE'. apply (keys_glue _ _ (lkey tb (Old, i))); [done| |done|done].
        rewrite TE, fmap_app in ND. by apply NoDup_app in ND as (_ & _ & ?).
      * by apply (wf_min_eq tb); [apply W|..].
    + unfold tstored. cbn [with_old cur old garbage ostored]. rewrite C. cbn [ostored]. by rewrite AS, <- app_assoc.
    + exists o', (Cell b' (dead x)). split; [done|]. split; [done|]. split; [done|]. split; [done|].
      cbn [with_old cur snd]. intros t2 c2 e C2. assert (c2 = c) as -> by congruence. by apply (Sep t2 c e).
    + intros k. unfold lkey. cbn [fst snd loc_array with_old old]. rewrite O.
      split; intros (a & [= <-] & Hi); eauto.
Qed.

(** ** Locking *)
Lemma index_lt t c k : wf_array hash t c -> (CapModel.bucket_index (sz c) (hash k) < alen c)%N.
Proof. intros W. apply (CapFacts.bucket_index_lt (sz c) (hash k) (table_wf _ (wa_table _ _ _ W)) (Hh k)). Qed.
Lemma cell_some t c i : wf_array hash t c -> (i < alen c)%N -> exists x, cell_at c i = Some x.
Proof. intros W Hi. apply lookup_lt_is_Some_2. rewrite (wa_len _ _ _ W). lia. Qed.

Lemma optional_writer_spec t sg tb k : wf_table hash t tb ->
  exists tb' r, optional_writer t sg hash tb (hash k) = Some (tb', r) /\ same hash t tb tb' /\
    match r with
    | None => tents t tb = []
    | Some l => l.1 = Cur /\ lkey tb' l k /\ exists b, owns tb' l b
    end.
Proof.
  intros W. unfold optional_writer. destruct (cur tb) as [c|] eqn:C.
  2:{ exists tb, None. split; [done|]. split; [by apply same_refl|].
      unfold tents. by rewrite C, (wf_tab_none _ _ _ W C). }
  destruct (wf_tab_cur _ _ _ _ W C) as (Wc & _).
  pose proof (index_lt t c k Wc) as Hi. set (i := CapModel.bucket_index (sz c) (hash k)) in *.
  destruct (prepare_spec hash Hh t sg tb c i W C Hi) as (tb1 & E1 & S1 & R1). rewrite E1, obind.
  destruct (st_cur _ _ _ _ S1 c C) as (c1 & C1 & Z1 & _).
  pose proof (sm_wf _ _ _ _ (st_same _ _ _ _ S1)) as W1. destruct (wf_tab_cur _ _ _ _ W1 C1) as (Wc1 & _).
  destruct (cell_some t c1 i Wc1) as (x & X); [unfold alen; by rewrite Z1|].
  assert (Ow : owns tb1 (Cur, i) (bkt x)) by (by exists c1, x).
  destruct (owns_lock _ _ _ _ W1 Ow) as [L _]. rewrite L, obind.
  exists tb1, (Some (Cur, i)). split; [done|]. split; [apply S1|]. split; [done|]. split; [|eauto].
  exists c1. cbn [fst snd loc_array]. by rewrite Z1.
Qed.

Lemma writer_spec_size t sg tb k : wf_table hash t tb ->
  exists tb' l b, writer t sg hash tb (hash k) = Some (tb', l) /\ same hash t tb tb' /\
    lkey tb' l k /\ owns tb' l b /\
    forall c, cur tb = Some c -> exists a, loc_array tb' l.1 = Some a /\ sz a = sz c.
Proof.
  intros W. unfold writer.
  destruct (create_spec hash t tb W) as (tb0 & c0 & E0 & S0 & C0 & _). rewrite E0, obind, C0, obind.
  pose proof (sm_wf _ _ _ _ S0) as W0. destruct (wf_tab_cur _ _ _ _ W0 C0) as (Wc0 & _).
  pose proof (index_lt t c0 k Wc0) as Hi. set (i := CapModel.bucket_index (sz c0) (hash k)) in *.
  destruct (prepare_spec hash Hh t sg tb0 c0 i W0 C0 Hi) as (tb1 & E1 & S1 & R1). rewrite E1, obind.
  destruct (st_cur _ _ _ _ S1 c0 C0) as (c & C1 & Z1 & _). rewrite C1, obind.
  pose proof (sm_wf _ _ _ _ (st_same _ _ _ _ S1)) as W1. destruct (wf_tab_cur _ _ _ _ W1 C1) as (Wc1 & Al & _).
  assert (Hi1 : (i < alen c)%N) by (unfold alen; by rewrite Z1).
  destruct (cell_some t c i Wc1 Hi1) as (x & X). rewrite X, obind.
  assert (S01 : same hash t tb tb1) by (eapply same_trans; [exact S0|apply S1]).
  assert (Ow : owns tb1 (Cur, i) (bkt x)) by (by exists c, x).
  assert (Lk : lkey tb1 (Cur, i) k) by (exists c; cbn [fst snd loc_array]; by rewrite Z1).
  set (test := (bool_decide (t ≠ CACHE) || (CapModel.num_slots (sz c) <? maxcap tb1)%N)
     && (BUCKET_LEN - 1 <=? blen (bkt x)) && CapModel.initiate_sampling (sz c) (hash k)).
  assert (Hlen : test = true -> entries t (bkt x) <> []).
  { unfold test. rewrite !andb_true_iff. intros [[_ H] _] E. apply Nat.leb_le in H.
    rewrite (wf_len _ _ _ (wc_core _ _ _ (wa_cells _ _ _ Wc1 _ _ X))), E in H. unfold BUCKET_LEN in H. cbn in H. lia. }
  assert (exists tb2, (if test then try_enlarge t tb1 i (clen x) else Some tb1) = Some tb2 /\
            same hash t tb1 tb2 /\ (tb2 = tb1 \/ resized tb1 tb2)) as (tb2 & E2 & S2 & D2).
  { destruct test eqn:T.
    - destruct (try_enlarge_spec hash Hh t tb1 c i (clen x) W1 C1 Hi1) as (tb2 & E2 & S2 & [->|[(_ & E & _)|D]]).
      + eauto.
      + exfalso. apply Hlen; [done|]. destruct (entries t (bkt x)) as [|e l] eqn:Ee; [done|].
        assert (e ∈ tents t tb1) as He.
        { unfold tents. rewrite C1. cbn [oents]. apply elem_of_app. right. apply elem_of_aents.
          exists (N.to_nat i), x. split; [exact X|]. rewrite Ee. set_solver. }
        rewrite E in He. by apply elem_of_nil in He.
      + eauto.
    - exists tb1. split; [done|]. split; [by apply same_refl|by left]. }
  rewrite E2, obind. pose proof (sm_wf _ _ _ _ S2) as W2.
  assert (exists l b, match old tb1, old tb2 with None, Some _ => (Old, i) | _, _ => (Cur, i) end = l /\
     lkey tb2 l k /\ owns tb2 l b /\ exists a, loc_array tb2 l.1 = Some a /\ sz a = sz c0)
    as (l & b & -> & Lk2 & Ow2 & a2 & A2 & Z2).
  { destruct D2 as [->|(c' & a & C' & O' & C2 & O2 & A2)].
    - exists (Cur, i), (bkt x). split; [by destruct (old tb1)|]. split; [done|]. split; [done|]. by exists c.
    - exists (Old, i), (bkt x). rewrite O', O2. split; [done|]. assert (c' = c) as -> by congruence. split.
      + exists c. cbn [fst snd loc_array]. by rewrite Z1.
      + split; [|by exists c].
        exists c, x. cbn [fst snd]. split; [done|]. split; [done|]. split; [done|]. split; [by eapply Al|].
        intros t' a' e A' He. assert (a' = a) as -> by congruence. rewrite A2 in He. by apply elem_of_nil in He. }
  destruct (owns_lock _ _ _ _ W2 Ow2) as [L _]. rewrite L, obind.
  exists tb2, l, b. split; [done|]. split; [by eapply same_trans|]. split; [done|]. split; [done|].
  intros c' C'. exists a2. split; [done|]. rewrite Z2. unfold create in E0. rewrite C' in E0. congruence.
Qed.
Lemma writer_spec t sg tb k : wf_table hash t tb ->
  exists tb' l b, writer t sg hash tb (hash k) = Some (tb', l) /\ same hash t tb tb' /\
    lkey tb' l k /\ owns tb' l b.
Proof. intros W. destruct (writer_spec_size t sg tb k W) as (tb' & l & b & ? & ? & ? & ? & _). by exists tb', l, b. Qed.

Lemma locked_try_shrink_spec t tb l b : wf_table hash t tb -> owns tb l b ->
  exists tb', locked_try_shrink t tb l = Some tb' /\ same hash t tb tb'.
Proof.
  intros W Ow. unfold locked_try_shrink. destruct l as [[] i]; cbn [fst snd].
  - destruct Ow as (c & x & C & X & _). destruct (wf_tab_cur _ _ _ _ W C) as (Wc & _).
    destruct (try_shrink_spec hash Hh t tb c i W C) as (tb' & E & S & _); [|eauto].
    apply cell_at_lt in X. cbn [snd] in X. rewrite (wa_len _ _ _ Wc) in X. lia.
  - exists tb. split; [done|by apply same_refl].
Qed.
End access.
