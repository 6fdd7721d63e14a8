(** Relocation that unwinds: it moves some entries and loses none. *)
From Coq Require Import NArith Lia.
From stdpp Require Import numbers prelude list.
From Verif Require CapModel CapSpec CapFacts CapThms.
From Verif Require Import LruModel BucketModel BucketSpec BucketFacts BucketOps BucketOps2 BucketOps3
  TableModel TableSpec TableFacts TableReloc TableHouse MapModel TuModel.

Section tufacts.
Context {K V : Type} `{EqDecision K}.
Context (hash : K -> N).
Context (Hh : forall k, (hash k < 2 ^ 64)%N).
Implicit Types (a c o : barray K V) (x : cell K V) (tb : table K V) (b : bucket K V).

(** Some entries of bucket [b] have been moved to array [a]. *)
Record cut t a b a' b' d : Prop := Cut {
  ct_wf : wf_array hash t a';
  ct_alive : forall j x, bks a' !! j = Some x -> dead x = false;
  ct_sz : sz a' = sz a;
  ct_cleared : cleared a' = cleared a;
  ct_core : wf_core hash t b';
  ct_sub : forall e, e ∈ entries t b' -> e ∈ entries t b;
  ct_ents : aents t a' ++ entries t b' ≡ₚ aents t a ++ entries t b;
  ct_stored : (astored a' ++ stored b') ++ d ≡ₚ astored a ++ stored b;
  ct_drop : t <> INDEX -> d = [] }.
Lemma cut_refl t a b : wf_array hash t a -> (forall j x, bks a !! j = Some x -> dead x = false) -> wf_core hash t b ->
  cut t a b a b [].
Proof. intros W A Wb. split; try done. by rewrite app_nil_r. Qed.
Lemma cut_step t a b p e a1 b1 d1 a2 b2 d2 :
  entries t b = e :: after (live_at t) b p -> before (live_at t) b p = [] ->
  sz a1 = sz a -> cleared a1 = cleared a -> aents t a1 ≡ₚ e :: aents t a ->
  astored a1 ++ d1 ≡ₚ e :: astored a -> (t <> INDEX -> d1 = []) ->
  taken hash t b p b1 p e -> cut t a1 b1 a2 b2 d2 -> cut t a b a2 b2 (d1 ++ d2).
Proof.
  intros Eb B0 S1 C1 E1 St1 D1 T [M1 M2 M3 M4 M5 M6 M7 M8 M9].
  pose proof (taken_entries _ _ _ _ _ _ _ T) as TE. rewrite B0 in TE. cbn [app] in TE.
  pose proof (taken_stored _ _ _ _ _ _ _ T) as TS.
  split; try done.
  - congruence.
  - congruence.
  - intros y Hy. rewrite Eb, <- TE. right. by apply M6.
  - rewrite M7, E1, TE, Eb. cbn [app]. apply Permutation_middle.
  - rewrite (Permutation_app_comm d1), app_assoc, M8, TS. rewrite <- app_assoc, (Permutation_app_comm (stored b1)), app_assoc, St1.
    cbn [app]. apply Permutation_middle.
  - intros Ht. by rewrite (D1 Ht), (M9 Ht).
Qed.

Lemma direct_loop_u_spec t sg keep target fuel : forall a b p acc n,
  wf_array hash t a -> (forall j x, bks a !! j = Some x -> dead x = false) ->
  wf_core hash t b -> wf_ptr b p -> entries t b = after (live_at t) b p -> before (live_at t) b p = [] ->
  length (after (live_at t) b p) < fuel ->
  (forall e, e ∈ after (live_at t) b p -> (target <= N.of_nat (bi hash a e.1))%N /\ (keep = true -> N.of_nat (bi hash a e.1) = target)) ->
  exists a' b' d r, direct_loop_u fuel t sg hash keep target a b p acc n = Some (a', b', acc ++ d, r) /\
    match r with
    | Some _ => direct_loop fuel t sg hash keep target a b p acc = Some (a', b', acc ++ d)
    | None => cut t a b a' b' d
    end.
Proof.
  induction fuel as [|f IH]; intros a b p acc n W A Wb Wp E B0 F T; [lia|]. cbn [direct_loop_u direct_loop].
  pose proof (move_to_next_spec hash t b p Wb Wp) as M. destruct (move_to_next t b p) as [p' []].
  - destruct M as (e & P & Ae). rewrite Ae in T, F. cbn [length] in F.
    pose proof (next_before hash t b p p' e Wb P Ae E) as B1.
    destruct (negb keep && (n =? 0)).
    { exists a, b, [], None. rewrite app_nil_r. split; [done|]. by apply cut_refl. }
    destruct (T e) as [T1 T2]; [set_solver|].
    destruct (entry_target_spec hash t keep a target b p' e W Wb P T1 T2) as (off & h & Et & Ph & Hi & _).
    rewrite Et, !obind. cbn [fst snd].
    destruct (move_entry_spec hash Hh t sg a (target + off) h b p' e W A Wb P Ph Hi)
      as (a1 & b1 & d1 & E1 & W1 & A1 & S1 & C1 & En1 & St1 & D1 & O1 & Tk).
    rewrite E1, !obind. cbn [fst snd].
    destruct (IH a1 b1 p' (acc ++ d1) (if keep then n else pred n)) as (a2 & b2 & d2 & r & E2 & M2); [done|done|apply Tk|apply Tk|..].
    { rewrite (taken_entries _ _ _ _ _ _ _ Tk), B1, (taken_after _ _ _ _ _ _ _ Tk). done. }
    { by rewrite (taken_before _ _ _ _ _ _ _ Tk). }
    { rewrite (taken_after _ _ _ _ _ _ _ Tk). lia. }
    { rewrite (taken_after _ _ _ _ _ _ _ Tk). intros y Hy. unfold bi. rewrite S1. apply T. set_solver. }
    exists a2, b2, (d1 ++ d2), r. split; [by rewrite E2, app_assoc|]. destruct r; [by rewrite M2, app_assoc|].
    eapply cut_step; [by rewrite E, Ae|done..|exact Tk|done].
  - exists a, b, [], (Some n). by rewrite app_nil_r.
Qed.

Lemma collect_loop_u_spec t keep target a fuel : forall b p dist hd pos n,
  wf_array hash t a -> wf_core hash t b -> wf_ptr b p -> length (after (live_at t) b p) < fuel ->
  (forall e, e ∈ after (live_at t) b p -> (target <= N.of_nat (bi hash a e.1))%N /\ (keep = true -> N.of_nat (bi hash a e.1) = target)) ->
  exists dist' hd' r, collect_loop_u fuel t hash keep target a b p dist hd pos n = Some (dist', hd', r) /\
    (r <> None -> collect_loop fuel t hash keep target a b p dist hd pos = Some (dist', hd')).
Proof.
  induction fuel as [|f IH]; intros b p dist hd pos n W Wb Wp F T; [lia|]. cbn [collect_loop_u collect_loop].
  pose proof (move_to_next_spec hash t b p Wb Wp) as M. destruct (move_to_next t b p) as [p' []].
  - destruct M as (e & Pt & Ae). rewrite Ae in T, F. cbn [length] in F.
    destruct (negb keep && (n =? 0)).
    { by exists dist, hd, None. }
    destruct (T e) as (T1 & T2); [set_solver|].
    destruct (entry_target_spec hash t keep a target b p' e W Wb Pt T1 T2) as (off & h & Et & _).
    rewrite Et, !obind. cbn [fst snd]. apply IH; [done|done|by eapply points_to_wf_ptr|lia|].
    intros y Hy. apply T. set_solver.
  - by exists dist, hd, (Some n).
Qed.

Lemma second_loop_u_spec t sg keep target hd fuel : forall a b p pos acc n,
  wf_array hash t a -> (forall j x, bks a !! j = Some x -> dead x = false) ->
  wf_core hash t b -> wf_ptr b p -> entries t b = after (live_at t) b p -> before (live_at t) b p = [] ->
  length (after (live_at t) b p) < fuel -> pos <= 32 -> length hd = 32 ->
  (keep = true -> forall e, e ∈ after (live_at t) b p -> N.of_nat (bi hash a e.1) = target) ->
  (keep = false -> forall i e, after (live_at t) b p !! i = Some e -> pos + i < 32 -> hd !! (pos + i) = Some (hash e.1)) ->
  exists a' b' d r, second_loop_u fuel t sg hash keep target a b p hd pos acc n = Some (a', b', acc ++ d, r) /\
    match r with
    | Some _ => second_loop fuel t sg hash keep target a b p hd pos acc = Some (a', b', acc ++ d)
    | None => cut t a b a' b' d
    end.
Proof.
  induction fuel as [|f IH]; intros a b p pos acc n W A Wb Wp E B0 F Hpos Hhd T C; [lia|]. cbn [second_loop_u second_loop].
  pose proof (move_to_next_spec hash t b p Wb Wp) as M. destruct (move_to_next t b p) as [p' []].
  - destruct M as (e & P & Ae). rewrite Ae in T, F, C. cbn [length] in F.
    pose proof (next_before hash t b p p' e Wb P Ae E) as B1.
    destruct (negb keep && (pos =? BUCKET_LEN) && (n =? 0)).
    { exists a, b, [], None. rewrite app_nil_r. split; [done|]. by apply cut_refl. }
    assert (X : exists h, (if keep then entry_byte b p'
           else if (pos =? BUCKET_LEN)%nat then e ← get b p'; Some (hash e.1)
           else hd !! pos) = Some h /\ partial_hash h = partial_hash (hash e.1) /\ (keep = false -> h = hash e.1)).
    { destruct keep.
      - rewrite (entry_byte_spec hash _ _ _ _ Wb P). eexists. split; [done|]. split; [apply partial_hash_idem|done].
      - exists (hash e.1). split; [|done]. destruct (Nat.eqb_spec pos BUCKET_LEN) as [->|Hp].
        + by rewrite (points_to_get _ _ _ _ P), obind.
        + specialize (C eq_refl 0 e eq_refl). rewrite Nat.add_0_r in C. apply C. unfold BUCKET_LEN in Hp. lia. }
    destruct X as (h & Eh & Ph & Hf). rewrite Eh, !obind. cbn zeta.
    destruct (move_entry_spec hash Hh t sg a (if keep then target else CapModel.bucket_index (sz a) h) h b p' e W A Wb P Ph)
      as (a1 & b1 & d1 & E1 & W1 & A1 & S1 & C1 & En1 & St1 & D1 & O1 & Tk).
    { destruct keep.
      - rewrite <- (T eq_refl e); [lia|set_solver].
      - by rewrite Hf. }
    rewrite E1, !obind. cbn [fst snd].
    set (pos' := if keep then pos else _).
    set (n' := if negb keep && _ then _ else n).
    destruct (IH a1 b1 p' pos' (acc ++ d1) n') as (a2 & b2 & d2 & r & E2 & M2); [done|done|apply Tk|apply Tk|..].
    { rewrite (taken_entries _ _ _ _ _ _ _ Tk), B1, (taken_after _ _ _ _ _ _ _ Tk). done. }
    { by rewrite (taken_before _ _ _ _ _ _ _ Tk). }
    { rewrite (taken_after _ _ _ _ _ _ _ Tk). lia. }
    { unfold pos'. destruct keep; [done|]. destruct (Nat.eqb_spec pos BUCKET_LEN); [done|]. unfold BUCKET_LEN in *. lia. }
    { done. }
    { rewrite (taken_after _ _ _ _ _ _ _ Tk). intros -> y Hy. unfold bi. rewrite S1. apply T; [done|]. set_solver. }
    { rewrite (taken_after _ _ _ _ _ _ _ Tk). intros -> i y Hy Hlt. unfold pos' in *.
      destruct (Nat.eqb_spec pos BUCKET_LEN) as [->|Hp]; [unfold BUCKET_LEN in *; lia|].
      replace (S pos + i) with (pos + S i) in * by lia. by apply C. }
    exists a2, b2, (d1 ++ d2), r. split; [by rewrite E2, app_assoc|]. destruct r; [by rewrite M2, app_assoc|].
    eapply cut_step; [by rewrite E, Ae|done..|exact Tk|done].
  - exists a, b, [], (Some n). by rewrite app_nil_r.
Qed.

Lemma relocate_bucket_u_spec t sg a target old_len b n :
  wf_array hash t a -> (forall j x, bks a !! j = Some x -> dead x = false) -> wf_core hash t b ->
  (forall e, e ∈ entries t b -> (target <= N.of_nat (bi hash a e.1))%N /\
     ((alen a <= old_len)%N -> N.of_nat (bi hash a e.1) = target)) ->
  exists a' b' d r, relocate_bucket_u t sg hash a target old_len b n = Some (a', b', d, r) /\
    match r with
    | Some _ => relocate_bucket t sg hash a target old_len b = Some (a', b', d)
    | None => cut t a b a' b' d
    end.
Proof.
  intros W A Wb T. unfold relocate_bucket_u, relocate_bucket.
  pose proof (after_null t b) as An. pose proof (before_null t b) as Bn.
  assert (F : length (after (live_at t) b null_ptr) < S (blen b)).
  { rewrite An, (wf_len _ _ _ Wb). lia. }
  set (keep := (alen a <=? old_len)%N).
  assert (T' : forall e, e ∈ after (live_at t) b null_ptr -> (target <= N.of_nat (bi hash a e.1))%N /\ (keep = true -> N.of_nat (bi hash a e.1) = target)).
  { intros e He. rewrite An in He. destruct (T e He) as [T1 T2]. split; [done|]. intros Hk. apply T2.
    by apply N.leb_le. }
  destruct (_ || _).
  - set (P := fun j => exists e, e ∈ entries t b /\ bi hash a e.1 = j).
    destruct (collect_loop_u_spec t keep target a (S (blen b)) b null_ptr (replicate 8 0) (replicate BUCKET_LEN 0%N) 0 n)
      as (dist & hd & r & E0 & Q); [done|done|apply wf_null|done|done|].
    rewrite E0, obind. cbn [fst snd]. destruct r as [n'|].
    2:{ exists a, b, [], None. split; [done|]. by apply cut_refl. }
    specialize (Q ltac:(done)).
    destruct (collect_loop_spec hash Hh t keep target a P (S (blen b)) b null_ptr (replicate 8 0) (replicate BUCKET_LEN 0%N) 0)
      as (dist' & hd' & E1 & _ & X2 & X3 & X4); [done|done|apply wf_null|done|..].
    { intros e He. destruct (T' e He). split; [done|]. split; [done|]. exists e. rewrite An in He. done. }
    { done. } { lia. }
    { intros i d [-> _]%lookup_replicate. done. }
    rewrite E1 in Q. injection Q as -> ->. rewrite E1, obind. cbn [fst snd].
    destruct (reserve_all_spec hash t P dist target a W A X4) as (a1 & E2 & W1 & A1 & S1 & C1 & En1 & St1 & O1).
    { intros i (e & _ & <-). by eapply bi_lt. }
    rewrite E2, !obind.
    destruct (second_loop_u_spec t sg keep target hd (S (blen b)) a1 b null_ptr 0 [] n') as (a2 & b2 & d & r & E3 & M);
      [done|done|done|apply wf_null|by rewrite An|done|done|lia|done|..].
    { intros Hk e He. unfold bi. rewrite S1. by apply T'. }
    { done. }
    exists a2, b2, d, r. split; [done|]. destruct r; [done|]. destruct M as [M1 M2 M3 M4 M5 M6 M7 M8 M9].
    split; try done.
    + congruence.
    + congruence.
    + by rewrite M7, En1.
    + by rewrite M8, St1.
  - destruct (direct_loop_u_spec t sg keep target (S (blen b)) a b null_ptr [] n) as (a2 & b2 & d & r & E3 & M);
      [done|done|done|apply wf_null|by rewrite An|done|done|done|].
    exists a2, b2, d, r. done.
Qed.

(** Relocation between the arrays, possibly incomplete: what it keeps. *)
Record part t c o c' o' d : Prop := Part {
  pt_pair : wf_pair hash t c' o';
  pt_szc : sz c' = sz c;
  pt_szo : sz o' = sz o;
  pt_clc : cleared c' = cleared c;
  pt_clo : cleared o' = cleared o;
  pt_ents : aents t o' ++ aents t c' ≡ₚ aents t o ++ aents t c;
  pt_stored : astored o' ++ astored c' ++ d ≡ₚ astored o ++ astored c;
  pt_drop : t <> INDEX -> d = [];
  pt_dead : forall j x, bks o !! j = Some x -> dead x = true -> exists y, bks o' !! j = Some y /\ dead y = true }.
Lemma reloc_part t c o c' o' d : wf_pair hash t c o -> reloc hash t c o c' o' d -> part t c o c' o' d.
Proof. intros W R. split; try apply R. intros j x Hx D. by apply (reloc_dead hash t c o c' o' d j x). Qed.
Lemma part_trans t c o c1 o1 d1 c2 o2 d2 : part t c o c1 o1 d1 -> part t c1 o1 c2 o2 d2 -> part t c o c2 o2 (d1 ++ d2).
Proof.
  intros [A1 A2 A3 A4 A5 A6 A7 A8 A9] [B1 B2 B3 B4 B5 B6 B7 B8 B9]. split; try congruence.
  - by rewrite B6.
  - eapply perm_swap3; done.
  - intros Ht. by rewrite (A8 Ht), (B8 Ht).
  - intros j x Hx D. destruct (A9 j x Hx D) as (y & Hy & Dy). by apply (B9 j y).
Qed.

Lemma perm_cut {A} (q b' b ro cc : list A) : cc ++ b' ≡ₚ q ++ b -> (b' ++ ro) ++ cc ≡ₚ (b ++ ro) ++ q.
Proof.
  intros P. rewrite (Permutation_app_comm b' ro), (Permutation_app_comm b ro), <- !app_assoc.
  apply Permutation_app_head. rewrite (Permutation_app_comm b'), P. apply Permutation_app_comm.
Qed.
Lemma perm_cut2 {A} (q b' b ro cc d : list A) : (cc ++ b') ++ d ≡ₚ q ++ b -> (b' ++ ro) ++ cc ++ d ≡ₚ (b ++ ro) ++ q.
Proof.
  intros P. rewrite (Permutation_app_comm b' ro), (Permutation_app_comm b ro), <- !app_assoc.
  apply Permutation_app_head. rewrite app_assoc, (Permutation_app_comm b'), P. apply Permutation_app_comm.
Qed.
Lemma wf_lru_other t b : t <> CACHE -> wf_lru t b.
Proof. unfold wf_lru. by destruct (decide (t = CACHE)). Qed.
Lemma relocate_cell_u_spec t sg c o i x n : t <> CACHE -> wf_pair hash t c o -> cell_at o i = Some x ->
  exists c' o' d r, relocate_cell_u t sg hash c o i n = Some (c', o', d, r) /\
    match r with
    | Some _ => relocate_cell t sg hash c o i = Some (c', o', d)
    | None => part t c o c' o' d
    end.
Proof.
  intros Ht W Hx. unfold relocate_cell_u, relocate_cell. rewrite Hx, !obind.
  pose proof (wa_cells _ _ _ (wp_old _ _ _ _ W) _ _ Hx) as Wx.
  destruct (dead x) eqn:Dx.
  { by exists c, o, [], (Some n). }
  pose proof (cell_at_lt _ _ _ Hx) as Li.
  destruct (Nat.eqb_spec (blen (bkt x)) 0) as [L0|L0].
  - assert (E0 : entries t (bkt x) = []).
    { apply length_zero_iff_nil. by rewrite <- (wf_len _ _ _ (wc_core _ _ _ Wx)). }
    destruct (kill_empty hash t (bkt x) (wc_core _ _ _ Wx) E0) as (b' & Ek & Wb' & E' & S'). rewrite Ek, !obind. cbn [fst snd].
    eexists _, _, _, _. split; [done|]. done.
  - destruct (CapModel.from_index_to_range (alen o) (alen c) i) as [s e] eqn:R. cbn [fst snd].
    assert (Hi : forall y, y ∈ entries t (bkt x) -> CapModel.bucket_index (sz o) (hash y.1) = i).
    { intros y Hy. rewrite (wa_place _ _ _ (wp_old _ _ _ _ W) _ x y Hx Hy). lia. }
    assert (T : forall y, y ∈ entries t (bkt x) -> (s <= N.of_nat (bi hash c y.1))%N /\
       ((alen c <= alen o)%N -> N.of_nat (bi hash c y.1) = s)).
    { intros y Hy. pose proof (Hi y Hy) as Hiy.
      destruct (CapThms.lC03_relocation_range (sz o) (sz c) (hash y.1) s e) as [X1 X2].
      { apply (wp_old _ _ _ _ W). } { apply (wp_cur _ _ _ _ W). } { apply (usize_hash _ Hh). }
      { by rewrite Hiy. }
      unfold bi. rewrite N2Nat.id. split; [lia|]. intros Hle. pose proof (range_shape _ _ _ _ _ R Hle). lia. }
    destruct (relocate_bucket_u_spec t sg c s (alen o) (bkt x) n) as (c' & b1 & d & r & E1 & M);
      [apply W|apply W|apply Wx|done|].
    rewrite E1, obind. cbn [fst snd]. destruct r as [n'|].
    + rewrite M, obind. cbn [fst snd].
      destruct (relocate_bucket_spec hash Hh t sg c s (alen o) (bkt x)) as (c2 & b2 & d2 & E2 & M2);
        [apply W|apply W|apply Wx|done|].
      rewrite M in E2. injection E2 as <- <- <-.
      assert (E0 : entries t b1 = []) by (rewrite (mv_left _ _ _ _ _ _ _ _ M2); apply before_null).
      destruct (kill_empty hash t b1 (mv_core _ _ _ _ _ _ _ _ M2) E0) as (b' & Ek & _). rewrite Ek, !obind. cbn [fst snd].
      eexists _, _, _, _. split; [done|]. done.
    + eexists _, _, _, _. split; [done|]. split; try done.
      * split; [apply M| |apply M|done]. apply wf_set_cell; [apply W|..]; cbn [bkt].
        -- split; cbn [bkt dead]; [apply M|done|]. intros _. by apply wf_lru_other.
        -- intros y Hy. apply (ct_sub _ _ _ _ _ _ M) in Hy. unfold bi. by rewrite (Hi y Hy).
      * apply M.
      * apply M.
      * rewrite (aents_set t o i x) by done. cbn [bkt]. rewrite (aents_split t o i x) by done.
        apply perm_cut, M.
      * rewrite (astored_set o i x) by done. cbn [bkt]. rewrite (astored_split o i x) by done.
        apply perm_cut2, M.
      * apply M.
      * intros j y Hy Dy. rewrite set_cell_bks. destruct (decide (j = N.to_nat i)) as [->|Hj].
        -- unfold cell_at in Hx. congruence.
        -- rewrite list_lookup_insert_ne by done. eauto.
Qed.

Lemma relocate_cells_u_spec t sg is : t <> CACHE -> forall c o acc n, wf_pair hash t c o ->
  (forall i, i ∈ is -> (i < alen o)%N) ->
  exists c' o' d r, relocate_cells_u t sg hash c o is acc n = Some (c', o', acc ++ d, r) /\
    match r with
    | Some _ => relocate_cells t sg hash c o is acc = Some (c', o', acc ++ d)
    | None => part t c o c' o' d
    end.
Proof.
  intros Ht. induction is as [|i is IH]; intros c o acc n W L; cbn [relocate_cells_u relocate_cells].
  { exists c, o, [], (Some n). by rewrite app_nil_r. }
  destruct (lookup_lt_is_Some_2 (bks o) (N.to_nat i)) as [x Hx].
  { rewrite (wa_len _ _ _ (wp_old _ _ _ _ W)). pose proof (L i ltac:(set_solver)). lia. }
  destruct (relocate_cell_u_spec t sg c o i x n Ht W Hx) as (c1 & o1 & d1 & r & E1 & M). rewrite E1, obind. cbn [fst snd].
  destruct r as [n'|].
  2:{ by exists c1, o1, d1, None. }
  destruct (relocate_cell_spec hash Hh t sg c o i x W Hx) as (c2 & o2 & d2 & E2 & R1 & _).
  rewrite M in E2. injection E2 as <- <- <-. rewrite M, obind. cbn [fst snd].
  destruct (IH c1 o1 (acc ++ d1) n') as (c2 & o2 & d2 & r & E2 & R2).
  { apply R1. }
  { intros j Hj. unfold alen. rewrite (rl_szo _ _ _ _ _ _ _ R1). apply L. set_solver. }
  exists c2, o2, (d1 ++ d2), r. split; [by rewrite E2, app_assoc|].
  destruct r; [by rewrite R2, app_assoc|]. eapply part_trans; [by apply reloc_part|done].
Qed.

Lemma part_same t tb c o c' o' d : wf_table hash t tb -> cur tb = Some c -> old tb = Some o ->
  part t c o c' o' d -> same hash t tb (release (with_arrays tb (Some c') (Some o')) d).
Proof.
  intros W C O R. destruct (wf_tab_pair hash t tb c o W C O) as (WP & WR & Z). destruct R as [P1 P2 P3 P4 P5 P6 P7 P8 P9].
  split; cbn [cur old release with_arrays mst maxcap garbage released].
  - split; cbn [cur old release with_arrays mst maxcap garbage released].
    + split; [done|]. split; [|by rewrite P4]. split.
      * rewrite P5. apply WR.
      * unfold alen. rewrite P5, P3. apply WR.
      * intros j x. rewrite P5. intros Hj Hx.
        assert (L : length (bks o') = length (bks o)).
        { rewrite (wa_len _ _ _ (wp_old _ _ _ _ P1)), (wa_len _ _ _ (wp_old _ _ _ _ WP)). unfold alen. by rewrite P3. }
        destruct (lookup_lt_is_Some_2 (bks o) j) as [y Hy]; [rewrite <- L; by eapply lookup_lt_Some|].
        destruct (P9 j y Hy (wr_dead _ WR _ _ Hj Hy)) as (z & Hz & Dz). congruence.
    + intros c2 [= <-]. rewrite P2. by apply (wt_size _ _ _ W).
    + intros o2 [= <-]. rewrite P3. by apply (wt_osize _ _ _ W).
    + apply W.
    + pose proof (wt_keys _ _ _ W) as N. unfold tents in *. rewrite C, O in N.
      cbn [cur old release with_arrays oents] in *. by rewrite P6.
    + by apply (wf_min_eq tb); [apply W|..].
  - unfold tents. rewrite C, O. exact P6.
  - unfold tstored. rewrite C, O. cbn [cur old release with_arrays ostored garbage].
    by apply acct_perm.
  - intros Ht. rewrite (P8 Ht). by rewrite app_nil_r.
  - done.
  - done.
Qed.

Lemma incremental_rehash_u_spec t sg tb n : t <> CACHE -> wf_table hash t tb ->
  exists tb' r, incremental_rehash_u t sg hash tb n = Some (tb', r) /\
    match r with
    | Some _ => exists held, incremental_rehash t sg hash tb = Some (tb', held)
    | None => same hash t tb tb'
    end.
Proof.
  intros Ht W. destruct (incremental_rehash_spec hash Hh t sg tb W) as (tbx & held & Ex & _).
  unfold incremental_rehash_u. unfold incremental_rehash in *.
  destruct (cur tb) as [c|] eqn:C.
  2:{ exists tb, (Some n). split; [done|]. by exists None. }
  destruct (old tb) as [o|] eqn:O.
  2:{ exists tb, (Some n). split; [done|]. by exists None. }
  destruct (wf_tab_pair _ _ _ _ _ W C O) as (WP & WR & Z).
  destruct (wr_round _ WR) as (m & Em). pose proof (wr_lt _ WR) as Lt.
  assert (L31 : N.land (cleared o) 31 = 0%N).
  { rewrite Em. change 31%N with (N.ones 5). rewrite N.land_ones. change (2 ^ 5)%N with 32%N.
    rewrite N.mul_comm. apply N.mod_mul. done. }
  assert (Lb : N.ldiff (cleared o) 31 = cleared o).
  { change 31%N with (2 ^ 5 - 1)%N. rewrite CapFacts.ldiff_ones_mul. change (2 ^ 5)%N with 32%N.
    rewrite Em, (N.mul_comm 32 m), N.div_mul by done. done. }
  destruct (N.leb_spec (alen o) (cleared o)); [lia|]. rewrite L31 in *. cbn [orb N.eqb] in *. rewrite Lb in *.
  destruct (relocate_cells_u_spec t sg (TableModel.range (cleared o) (N.min (cleared o + 32) (alen o))) Ht c o [] n WP)
    as (c' & o' & d & r & E & R).
  { intros i Hi%elem_of_range. lia. }
  rewrite E, obind. cbn [fst snd app] in *. destruct r as [n'|].
  - rewrite R, obind in Ex. rewrite R, obind. cbn [fst snd] in *.
    destruct (_ && _).
    + destruct (defer_reclaim _ _ _) as [tb2|]; [|done]. rewrite !obind in *.
      exists tb2, (Some n'). split; [done|]. eauto.
    + eexists _, (Some n'). split; [done|]. eauto.
  - eexists _, None. split; [done|].
    assert (TB : take_back (cleared o + 33) (cleared o) = cleared o).
    { unfold take_back. destruct (N.leb_spec (cleared o + 33) (cleared o)); [lia|].
      replace (N.land (cleared o + 33) 31) with 1%N.
      - by rewrite N.lor_0_r.
      - change 31%N with (N.ones 5). rewrite N.land_ones. change (2 ^ 5)%N with 32%N. rewrite Em.
        replace (32 * m + 33)%N with (1 + (m + 1) * 32)%N by lia. by rewrite N.mod_add. }
    rewrite TB. replace (BArray (sz o') (bks o') (cleared o)) with o'.
    + by eapply part_same.
    + rewrite <- (pt_clo _ _ _ _ _ _ R). by destruct o'.
Qed.

Lemma prepare_u_spec t sg tb c i n : t <> CACHE -> wf_table hash t tb -> cur tb = Some c -> (i < alen c)%N ->
  exists tb' r, prepare_u t sg hash tb i n = Some (tb', r) /\
    match r with
    | Some _ => prepare t sg hash tb i = Some tb'
    | None => same hash t tb tb'
    end.
Proof.
  intros Ht W C Hi. unfold prepare_u, prepare.
  destruct (incremental_rehash_u_spec t sg tb n Ht W) as (tb1 & r & E & M). rewrite E, obind. cbn [fst snd].
  destruct r as [n'|]; [|by exists tb1, None].
  destruct M as (held & E1). rewrite E1, obind. cbn [fst snd].
  destruct (incremental_rehash_spec hash Hh t sg tb W) as (tbx & heldx & Ex & S1 & _).
  rewrite E1 in Ex. injection Ex as <- <-.
  destruct (st_cur _ _ _ _ S1 c C) as (c1 & C1 & Z1 & _). rewrite C1.
  pose proof (sm_wf _ _ _ _ (st_same _ _ _ _ S1)) as W1.
  destruct (old tb1) as [o1|] eqn:O1; [|by exists tb1, (Some n')].
  destruct (wf_tab_pair _ _ _ _ _ W1 C1 O1) as (WP & WR & Z).
  unfold dedup_bucket. destruct (CapModel.from_index_to_range (alen c1) (alen o1) i) as [s e] eqn:R. cbn [fst snd].
  destruct (relocate_cells_u_spec t sg (TableModel.range s e) Ht c1 o1 [] n' WP) as (c2 & o2 & d & r & E2 & R2).
  { intros j Hj%elem_of_range.
    pose proof (range_bound c1 o1 i s e (wa_table _ _ _ (wp_cur _ _ _ _ WP)) (wa_table _ _ _ (wp_old _ _ _ _ WP))) as B.
    unfold alen in B. rewrite Z1 in B. specialize (B Hi). unfold alen in R. rewrite Z1 in R. specialize (B R). unfold alen. lia. }
  rewrite E2, obind. cbn [fst snd app] in *. destruct r as [n2|].
  - rewrite R2, obind. cbn [fst snd]. by eexists _, (Some n2).
  - eexists _, None. split; [done|]. eapply same_trans; [apply S1|]. by eapply part_same.
Qed.
End tufacts.
