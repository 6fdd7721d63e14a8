(** Facts about arrays of buckets and the relocation of one bucket. *)
From Coq Require Import NArith Lia.
From stdpp Require Import numbers prelude list.
From Verif Require CapModel CapSpec CapFacts CapThms.
From Verif Require Import LruModel BucketModel BucketSpec BucketFacts BucketOps BucketOps2 BucketOps3
  TableModel TableSpec.

Global Arguments aents : simpl never.
Global Arguments astored : simpl never.
Global Arguments tents : simpl never.

Section list_facts.
Context {A B : Type}.
Implicit Types (l : list A) (f : A -> list B).
Definition rest f l (i : nat) : list B := concat (map f (take i l)) ++ concat (map f (drop (S i) l)).
Lemma concat_split f l i x : l !! i = Some x -> concat (map f l) ≡ₚ f x ++ rest f l i.
Proof.
  intros H. unfold rest. rewrite <- (take_drop_middle _ _ _ H) at 1.
  rewrite map_app, concat_app. cbn [map concat]. rewrite !app_assoc.
  apply Permutation_app; [apply Permutation_app_comm|done].
Qed.
Lemma rest_insert f l i y : rest f (<[i:=y]> l) i = rest f l i.
Proof. unfold rest. rewrite take_insert by lia. by rewrite drop_insert_gt by lia. Qed.
Lemma concat_insert f l i y : i < length l -> concat (map f (<[i:=y]> l)) ≡ₚ f y ++ rest f l i.
Proof.
  intros H. rewrite <- (rest_insert f l i y). apply concat_split. by apply list_lookup_insert.
Qed.
Lemma elem_of_concat_map f l y : y ∈ concat (map f l) <-> exists i x, l !! i = Some x /\ y ∈ f x.
Proof.
  induction l as [|x l IH]; cbn [map concat].
  - rewrite elem_of_nil. split; [done|]. by intros (i & x & ? & _).
  - rewrite elem_of_app, IH. split.
    + intros [H|(i & z & H1 & H2)]; [by exists 0, x|by exists (S i), z].
    + intros ([|i] & z & H1 & H2); cbn in H1; [left; congruence|right; eauto].
Qed.
Lemma concat_same f g l : (forall x, x ∈ l -> f x = g x) -> concat (map f l) = concat (map g l).
Proof.
  intros H. induction l as [|x l IH]; [done|]. cbn [map concat]. rewrite (H x), IH; [done|set_solver|set_solver].
Qed.
Lemma concat_nil f l : (forall i x, l !! i = Some x -> f x = []) -> concat (map f l) = [].
Proof.
  intros H. induction l as [|x l IH]; [done|]. cbn [map concat].
  rewrite (H 0 x) by done. apply IH. intros i y E. by apply (H (S i)).
Qed.
End list_facts.

Section facts.
Context {K V : Type} `{EqDecision K}.
Context (hash : K -> N).
Context (Hh : forall k, (hash k < 2 ^ 64)%N).
Implicit Types (a c o : barray K V) (x : cell K V) (tb : table K V) (b : bucket K V).

Definition bi (a : barray K V) (k : K) : nat := N.to_nat (CapModel.bucket_index (sz a) (hash k)).

Lemma usize_hash k : CapSpec.usize (hash k).
Proof. exact (Hh k). Qed.
Lemma table_wf s : CapSpec.table s -> CapFacts.wf_arr s.
Proof. intros [c E]. exact (CapFacts.arr_new_wf _ _ E). Qed.
Lemma alen_pos a : CapSpec.table (sz a) -> (0 < alen a)%N.
Proof.
  intros (k & s & E & _)%table_wf. unfold alen. rewrite E. cbn [CapModel.array_len]. apply CapFacts.pow2_pos.
Qed.
Lemma bi_lt t a k : wf_array hash t a -> bi a k < length (bks a).
Proof.
  intros W. rewrite (wa_len _ _ _ W). unfold bi.
  pose proof (CapFacts.bucket_index_lt (sz a) (hash k) (table_wf _ (wa_table _ _ _ W)) (Hh k)).
  unfold alen. lia.
Qed.

Lemma set_cell_bks a i y : bks (set_cell a i y) = <[N.to_nat i := y]> (bks a).
Proof. done. Qed.
Lemma wf_set_cell t a i y : wf_array hash t a -> wf_cell hash t y ->
  (forall e, e ∈ entries t (bkt y) -> bi a e.1 = N.to_nat i) -> wf_array hash t (set_cell a i y).
Proof.
  intros W Wy P. split; [apply W|..]; rewrite set_cell_bks.
  - rewrite insert_length. apply W.
  - intros j z H. destruct (decide (j = N.to_nat i)) as [->|Hj].
    + destruct (decide (N.to_nat i < length (bks a))) as [L|L].
      * rewrite list_lookup_insert in H by done. by injection H as <-.
      * rewrite list_insert_ge in H by lia. by eapply W.
    + rewrite list_lookup_insert_ne in H by done. by eapply W.
  - intros j z e H He. change (sz (set_cell a i y)) with (sz a).
    destruct (decide (j = N.to_nat i)) as [->|Hj].
    + destruct (decide (N.to_nat i < length (bks a))) as [L|L].
      * rewrite list_lookup_insert in H by done. injection H as <-. apply P in He. unfold bi in He. lia.
      * rewrite list_insert_ge in H by lia. by eapply W.
    + rewrite list_lookup_insert_ne in H by done. by eapply W.
Qed.

(** Replacing one bucket of an array. *)
Lemma aents_split t a i x : cell_at a i = Some x ->
  aents t a ≡ₚ entries t (bkt x) ++ rest (fun x => entries t (bkt x)) (bks a) (N.to_nat i).
Proof. apply (concat_split (fun x => entries t (bkt x))). Qed.
Lemma astored_split a i x : cell_at a i = Some x ->
  astored a ≡ₚ stored (bkt x) ++ rest (fun x => stored (bkt x)) (bks a) (N.to_nat i).
Proof. apply (concat_split (fun x => stored (bkt x))). Qed.
Lemma cell_at_lt a i x : cell_at a i = Some x -> N.to_nat i < length (bks a).
Proof. apply lookup_lt_Some. Qed.
Lemma aents_set t a i x y : cell_at a i = Some x ->
  aents t (set_cell a i y) ≡ₚ entries t (bkt y) ++ rest (fun x => entries t (bkt x)) (bks a) (N.to_nat i).
Proof. intros E. apply (concat_insert (fun x => entries t (bkt x))). by eapply cell_at_lt. Qed.
Lemma astored_set a i x y : cell_at a i = Some x ->
  astored (set_cell a i y) ≡ₚ stored (bkt y) ++ rest (fun x => stored (bkt x)) (bks a) (N.to_nat i).
Proof. intros E. apply (concat_insert (fun x => stored (bkt x))). by eapply cell_at_lt. Qed.
Lemma elem_of_aents t a e : e ∈ aents t a <-> exists i x, bks a !! i = Some x /\ e ∈ entries t (bkt x).
Proof. apply (elem_of_concat_map (fun x => entries t (bkt x))). Qed.
Lemma elem_of_aents_bi t a e : wf_array hash t a -> e ∈ aents t a ->
  exists x, bks a !! bi a e.1 = Some x /\ e ∈ entries t (bkt x).
Proof.
  intros W (i & x & H1 & H2)%elem_of_aents. exists x. split; [|done].
  unfold bi. rewrite (wa_place _ _ _ W i x e H1 H2). by rewrite Nat2N.id.
Qed.

Lemma wf_new_cell t : wf_cell hash t (Cell (K:=K) (V:=V) new_bucket false).
Proof.
  split; cbn [bkt dead]; [|done|intros _].
  - apply (wf_new_bucket hash t).
  - apply (wf_new_bucket hash t).
Qed.
Lemma new_barray_spec t n : exists a, new_barray n = Some a /\ wf_array hash t a /\
  aents t a = [] /\ astored a = [] /\ cleared a = 0%N /\
  (forall i x, bks a !! i = Some x -> dead x = false) /\ CapModel.arr_new n = Some (sz a).
Proof.
  destruct (CapFacts.arr_new_spec n) as (k & s & E & _). unfold new_barray. rewrite E, obind.
  eexists. split; [done|].
  split; [|split; [|split; [|split; [|split]]]]; [split|..]; cbn [bks sz cleared].
  - by exists n.
  - by rewrite replicate_length.
  - intros i y [-> _]%lookup_replicate. apply wf_new_cell.
  - intros i y e [-> _]%lookup_replicate He. cbn [bkt] in He. rewrite entries_new in He. by apply elem_of_nil in He.
  - apply (concat_nil (fun x => entries t (bkt x))). intros i y [-> _]%lookup_replicate. apply entries_new.
  - apply (concat_nil (fun x => stored (bkt x))). intros i y [-> _]%lookup_replicate. apply stored_new_bucket.
  - done.
  - intros i y H. cbn [bks] in H. by apply lookup_replicate in H as [-> _].
  - done.
Qed.

(** ** Moving one entry *)
Lemma entry_byte_spec t b p e : wf_core hash t b -> points_to t b p e ->
  entry_byte b p = Some (partial_hash (hash e.1)).
Proof.
  intros W P. pose proof P as (bl & i & Hb & Hi & L). pose proof (wf_ptr_block _ _ _ _ _ W Hb) as Wb.
  unfold entry_byte. rewrite Hb, obind, Hi, obind. exact (wf_hash _ _ _ _ Wb _ _ L).
Qed.

Lemma move_entry_spec t sg a i h b p e : wf_array hash t a ->
  (forall j x, bks a !! j = Some x -> dead x = false) ->
  wf_core hash t b -> points_to t b p e -> partial_hash h = partial_hash (hash e.1) ->
  N.to_nat i = bi a e.1 ->
  exists a' b' d, move_entry t sg a i h b p = Some (a', b', d) /\
    wf_array hash t a' /\ (forall j x, bks a' !! j = Some x -> dead x = false) /\
    sz a' = sz a /\ cleared a' = cleared a /\
    aents t a' ≡ₚ e :: aents t a /\ astored a' ++ d ≡ₚ e :: astored a /\ (t <> INDEX -> d = []) /\
    (forall j, j <> bi a e.1 -> bks a' !! j = bks a !! j) /\ taken hash t b p b' p e.
Proof.
  intros W A Wb P Hp Hi. unfold move_entry.
  assert (L : N.to_nat i < length (bks a)) by (rewrite Hi; by eapply bi_lt).
  destruct (lookup_lt_is_Some_2 _ _ L) as [x Hx]. change (bks a !! N.to_nat i) with (cell_at a i) in Hx.
  rewrite Hx, obind. pose proof (wa_cells _ _ _ W _ _ Hx) as Wx. pose proof (A _ _ Hx) as Ax.
  destruct (extract_from_spec hash t sg (bkt x) h b p e) as (b' & to' & d & E & T & W' & E' & S' & D' & _).
  { split; [apply Wx|by apply Wx]. }
  { done. } { done. } { done. }
  rewrite E, obind. cbn [fst snd]. eexists _, _, _. split; [done|].
  split; [|split; [|split; [|split; [|split; [|split; [|split; [|split]]]]]]].
  - apply wf_set_cell; [done|..].
    + split; cbn [bkt dead]; [apply W'|by rewrite Ax|intros _; apply W'].
    + cbn [bkt]. intros y Hy. rewrite E' in Hy. apply elem_of_cons in Hy as [->|Hy]; [done|].
      unfold bi. rewrite (wa_place _ _ _ W _ x y Hx Hy). lia.
  - intros j y. rewrite set_cell_bks. destruct (decide (j = N.to_nat i)) as [->|Hj].
    + rewrite list_lookup_insert by done. by intros [= <-].
    + rewrite list_lookup_insert_ne by done. apply A.
  - done.
  - done.
  - rewrite (aents_set t a i x) by done. cbn [bkt]. rewrite E', (aents_split t a i x) by done. done.
  - rewrite (astored_set a i x) by done. cbn [bkt]. rewrite (astored_split a i x) by done.
    rewrite (Permutation_app_comm (stored to')), <- app_assoc, S', (Permutation_app_comm _ (e :: _)). done.
  - done.
  - intros j Hj. rewrite set_cell_bks. apply list_lookup_insert_ne. lia.
  - done.
Qed.

(** ** The loops of [relocate_bucket] *)
(** What moving all entries after [p] does. *)
Record moved t a b p a' b' d : Prop := Moved {
  mv_wf : wf_array hash t a';
  mv_alive : forall j x, bks a' !! j = Some x -> dead x = false;
  mv_sz : sz a' = sz a;
  mv_cleared : cleared a' = cleared a;
  mv_ents : aents t a' ≡ₚ after (live_at t) b p ++ aents t a;
  mv_stored : astored a' ++ d ≡ₚ after (live_at t) b p ++ astored a;
  mv_drop : t <> INDEX -> d = [];
  mv_other : forall j, (forall e, e ∈ after (live_at t) b p -> bi a e.1 <> j) -> bks a' !! j = bks a !! j;
  mv_core : wf_core hash t b';
  mv_left : entries t b' = before (live_at t) b p;
  mv_bstored : stored b ≡ₚ after (live_at t) b p ++ stored b' }.

Lemma moved_done t a b p : wf_array hash t a -> (forall j x, bks a !! j = Some x -> dead x = false) ->
  wf_core hash t b -> after (live_at t) b p = [] -> entries t b = before (live_at t) b p ->
  moved t a b p a b [].
Proof. intros W A Wb E Eb. split; rewrite ?E; try done. by rewrite app_nil_r. Qed.

Lemma moved_step t a b p p' e a1 b1 d1 a2 b2 d2 :
  after (live_at t) b p = e :: after (live_at t) b p' ->
  before (live_at t) b p = [] -> before (live_at t) b p' = [] ->
  sz a1 = sz a -> cleared a1 = cleared a -> aents t a1 ≡ₚ e :: aents t a ->
  astored a1 ++ d1 ≡ₚ e :: astored a -> (t <> INDEX -> d1 = []) ->
  (forall j, j <> bi a e.1 -> bks a1 !! j = bks a !! j) ->
  taken hash t b p' b1 p' e ->
  moved t a1 b1 p' a2 b2 d2 -> moved t a b p a2 b2 (d1 ++ d2).
Proof.
  intros A1 B0 B1 S1 C1 E1 St1 D1 O1 T M.
  pose proof (taken_after _ _ _ _ _ _ _ T) as TA. pose proof (taken_before _ _ _ _ _ _ _ T) as TB.
  destruct M as [M1 M2 M3 M4 M5 M6 M7 M8 M9 M10 M11]. rewrite TA in *. rewrite TB in *.
  split; rewrite ?A1; try done.
  - congruence.
  - congruence.
  - rewrite M5, E1. cbn [app]. symmetry. apply Permutation_middle.
  - rewrite (Permutation_app_comm d1), app_assoc, M6, <- app_assoc, St1. cbn [app]. symmetry. apply Permutation_middle.
  - intros Ht. by rewrite (D1 Ht), (M7 Ht).
  - intros j Hj. rewrite M8, O1; [done|..].
    + intros ->. apply (Hj e); [set_solver|done].
    + intros y Hy. unfold bi. rewrite S1. apply Hj. set_solver.
  - by rewrite M10, B1, B0.
  - rewrite (taken_stored _ _ _ _ _ _ _ T), M11. done.
Qed.

Lemma next_before t b p p' e : wf_core hash t b -> points_to t b p' e ->
  after (live_at t) b p = e :: after (live_at t) b p' -> entries t b = after (live_at t) b p ->
  before (live_at t) b p' = [].
Proof.
  intros W P A E. pose proof (points_to_split _ _ _ _ _ W P) as Sp.
  rewrite E, A in Sp. apply (f_equal length) in Sp. rewrite app_length in Sp. cbn [length] in Sp.
  destruct (before (live_at t) b p'); [done|cbn [length] in Sp; lia].
Qed.

Lemma entry_target_spec t keep a target b p e : wf_array hash t a -> wf_core hash t b -> points_to t b p e ->
  (target <= N.of_nat (bi a e.1))%N -> (keep = true -> N.of_nat (bi a e.1) = target) ->
  exists off h, entry_target hash keep a target b p = Some (off, h) /\
    partial_hash h = partial_hash (hash e.1) /\ N.to_nat (target + off) = bi a e.1 /\
    (keep = false -> h = hash e.1).
Proof.
  intros W Wb P Ht Hk. unfold entry_target, bi in *. destruct keep.
  - rewrite (entry_byte_spec _ _ _ _ Wb P), obind. eexists _, _. split; [done|].
    split; [apply partial_hash_idem|]. split; [|done]. rewrite <- Hk by done. lia.
  - rewrite (points_to_get _ _ _ _ P), obind. cbn zeta.
    destruct (N.ltb_spec (CapModel.bucket_index (sz a) (hash e.1)) target); [lia|].
    eexists _, _. split; [done|]. split; [done|]. split; [lia|done].
Qed.

Lemma direct_loop_spec t sg keep target fuel : forall a b p acc,
  wf_array hash t a -> (forall j x, bks a !! j = Some x -> dead x = false) ->
  wf_core hash t b -> wf_ptr b p -> entries t b = after (live_at t) b p -> before (live_at t) b p = [] ->
  length (after (live_at t) b p) < fuel ->
  (forall e, e ∈ after (live_at t) b p -> (target <= N.of_nat (bi a e.1))%N /\ (keep = true -> N.of_nat (bi a e.1) = target)) ->
  exists a' b' d, direct_loop fuel t sg hash keep target a b p acc = Some (a', b', acc ++ d) /\
    moved t a b p a' b' d.
Proof.
  induction fuel as [|f IH]; intros a b p acc W A Wb Wp E B0 F T; [lia|]. cbn [direct_loop].
  pose proof (move_to_next_spec hash t b p Wb Wp) as M. destruct (move_to_next t b p) as [p' []].
  - destruct M as (e & P & Ae). rewrite Ae in T, F. cbn [length] in F.
    pose proof (next_before _ _ _ _ _ Wb P Ae E) as B1.
    destruct (T e) as [T1 T2]; [set_solver|].
    destruct (entry_target_spec t keep a target b p' e W Wb P T1 T2) as (off & h & Et & Ph & Hi & _).
    rewrite Et, obind. cbn [fst snd].
    destruct (move_entry_spec t sg a (target + off) h b p' e W A Wb P Ph Hi)
      as (a1 & b1 & d1 & E1 & W1 & A1 & S1 & C1 & En1 & St1 & D1 & O1 & Tk).
    rewrite E1, obind. cbn [fst snd].
    destruct (IH a1 b1 p' (acc ++ d1)) as (a2 & b2 & d2 & E2 & M2); [done|done|apply Tk|apply Tk|..].
    { rewrite (taken_entries _ _ _ _ _ _ _ Tk), B1, (taken_after _ _ _ _ _ _ _ Tk). done. }
    { by rewrite (taken_before _ _ _ _ _ _ _ Tk). }
    { rewrite (taken_after _ _ _ _ _ _ _ Tk). lia. }
    { rewrite (taken_after _ _ _ _ _ _ _ Tk). intros y Hy. unfold bi. rewrite S1. apply T. set_solver. }
    exists a2, b2, (d1 ++ d2). split; [by rewrite E2, app_assoc|]. by eapply moved_step.
  - destruct M as [M _]. exists a, b, []. split; [by rewrite app_nil_r|].
    apply moved_done; [done|done|done|done|]. by rewrite E, M, B0.
Qed.

(** The collecting loop changes nothing and caches the hashes of the first 32 entries. *)
Lemma collect_loop_spec t keep target a (P : nat -> Prop) fuel : forall b p dist hd pos,
  wf_array hash t a -> wf_core hash t b -> wf_ptr b p -> length (after (live_at t) b p) < fuel ->
  (forall e, e ∈ after (live_at t) b p -> (target <= N.of_nat (bi a e.1))%N /\ (keep = true -> N.of_nat (bi a e.1) = target) /\ P (bi a e.1)) ->
  length hd = 32 -> pos <= 32 ->
  (forall i d, dist !! i = Some d -> d <> 0 -> P (N.to_nat target + i)) ->
  exists dist' hd', collect_loop fuel t hash keep target a b p dist hd pos = Some (dist', hd') /\
    (forall i, i < pos -> hd' !! i = hd !! i) /\ length hd' = 32 /\
    (keep = false -> forall i e, after (live_at t) b p !! i = Some e -> pos + i < 32 -> hd' !! (pos + i) = Some (hash e.1)) /\
    (forall i d, dist' !! i = Some d -> d <> 0 -> P (N.to_nat target + i)).
Proof.
  induction fuel as [|f IH]; intros b p dist hd pos W Wb Wp F T Hl Hpos HD; [lia|]. cbn [collect_loop].
  pose proof (move_to_next_spec hash t b p Wb Wp) as M. destruct (move_to_next t b p) as [p' []].
  - destruct M as (e & Pt & Ae). rewrite Ae in T, F. cbn [length] in F.
    destruct (T e) as (T1 & T2 & T3); [set_solver|].
    destruct (entry_target_spec t keep a target b p' e W Wb Pt T1 T2) as (off & h & Et & Ph & Hi & Hf).
    rewrite Et, obind. cbn [fst snd].
    set (dist1 := dist_add dist (N.to_nat off)).
    assert (HD1 : forall i d, dist1 !! i = Some d -> d <> 0 -> P (N.to_nat target + i)).
    { intros i d Hd Hn. unfold dist1, dist_add in Hd. destruct (decide (i = N.to_nat off)) as [->|Hne].
      - by rewrite <- N2Nat.inj_add, Hi.
      - rewrite list_lookup_alter_ne in Hd by done.
        apply lookup_app_Some in Hd as [Hd|[_ Hd]]; [by eapply HD|].
        apply lookup_replicate in Hd as [-> _]. done. }
    destruct (Nat.eqb_spec pos BUCKET_LEN) as [->|Hp].
    + destruct (IH b p' dist1 hd BUCKET_LEN) as (dist' & hd' & E' & X1 & X2 & X3 & X4); try done.
      { by eapply points_to_wf_ptr. } { lia. } { intros y Hy. apply T. set_solver. }
      exists dist', hd'. split; [done|]. split; [done|]. split; [done|]. split; [|done].
      intros _ i y _ Hlt. unfold BUCKET_LEN in Hlt. lia.
    + unfold BUCKET_LEN in Hp.
      destruct (IH b p' dist1 (<[pos:=h]> hd) (S pos)) as (dist' & hd' & E' & X1 & X2 & X3 & X4); try done.
      { by eapply points_to_wf_ptr. } { lia. } { intros y Hy. apply T. set_solver. }
      { by rewrite insert_length. } { lia. }
      exists dist', hd'. split; [done|]. split; [|split; [done|split; [|done]]].
      * intros i Hlt. rewrite X1 by lia. apply list_lookup_insert_ne. lia.
      * intros Hk i y Hy Hlt. rewrite Ae in Hy. destruct i as [|i]; cbn in Hy.
        -- injection Hy as <-. rewrite Nat.add_0_r, X1 by lia. rewrite list_lookup_insert by lia. by rewrite Hf.
        -- replace (pos + S i) with (S pos + i) by lia. apply X3; [done|done|lia].
  - destruct M as [M _]. exists dist, hd. split; [done|]. split; [done|]. split; [done|]. split; [|done].
    intros _ i y Hy. by rewrite M in Hy.
Qed.

Lemma reserve_all_spec t (P : nat -> Prop) dist : forall target a,
  wf_array hash t a -> (forall j x, bks a !! j = Some x -> dead x = false) ->
  (forall i d, dist !! i = Some d -> d <> 0 -> P (N.to_nat target + i)) ->
  (forall i, P i -> i < length (bks a)) ->
  exists a', reserve_all a target dist = Some a' /\ wf_array hash t a' /\
    (forall j x, bks a' !! j = Some x -> dead x = false) /\ sz a' = sz a /\ cleared a' = cleared a /\
    aents t a' ≡ₚ aents t a /\ astored a' ≡ₚ astored a /\
    (forall j, ~ P j -> bks a' !! j = bks a !! j).
Proof.
  induction dist as [|d ds IH]; intros target a W A HD HP; cbn [reserve_all].
  { exists a. done. }
  assert (HDs : forall i d, ds !! i = Some d -> d <> 0 -> P (N.to_nat (target + 1) + i)).
  { intros i d' Hi Hn. specialize (HD (S i) d' Hi Hn). by replace (N.to_nat (target + 1) + i) with (N.to_nat target + S i) by lia. }
  destruct (Nat.eqb_spec d 0) as [->|Hd].
  - by apply IH.
  - assert (PT : P (N.to_nat target)) by (specialize (HD 0 d eq_refl Hd); by rewrite Nat.add_0_r in HD).
    assert (L : N.to_nat target < length (bks a)) by (by apply HP).
    destruct (lookup_lt_is_Some_2 _ _ L) as [x Hx]. change (bks a !! N.to_nat target) with (cell_at a target) in Hx.
    rewrite Hx, obind. pose proof (wa_cells _ _ _ W _ _ Hx) as Wx. pose proof (A _ _ Hx) as Ax.
    destruct (reserve_slots_spec hash t (bkt x) d) as (Wr & Er & Sr); [split; [apply Wx|by apply Wx]|].
    set (a1 := set_cell a target _).
    destruct (IH (target + 1)%N a1) as (a' & E' & W' & A' & S' & C' & En & St & O).
    + apply wf_set_cell; [done|..]; cbn [bkt].
      * split; cbn [bkt dead]; [apply Wr|by rewrite Ax|intros _; apply Wr].
      * intros e He. rewrite Er in He. unfold bi. rewrite (wa_place _ _ _ W _ x e Hx He). lia.
    + intros j y. unfold a1. rewrite set_cell_bks. destruct (decide (j = N.to_nat target)) as [->|Hjj].
      * rewrite list_lookup_insert by done. by intros [= <-].
      * rewrite list_lookup_insert_ne by done. apply A.
    + done.
    + unfold a1. by rewrite set_cell_bks, insert_length.
    + exists a'. split; [done|]. split; [done|]. split; [done|]. split; [done|]. split; [done|].
      split; [|split].
      * rewrite En. unfold a1. rewrite (aents_set t a target x) by done. cbn [bkt]. rewrite Er.
        by rewrite <- aents_split.
      * rewrite St. unfold a1. rewrite (astored_set a target x) by done. cbn [bkt]. rewrite Sr.
        by rewrite <- astored_split.
      * intros j Hjj. rewrite (O j) by done. unfold a1. rewrite set_cell_bks.
        apply list_lookup_insert_ne. by intros <-.
Qed.

Lemma second_loop_spec t sg keep target hd fuel : forall a b p pos acc,
  wf_array hash t a -> (forall j x, bks a !! j = Some x -> dead x = false) ->
  wf_core hash t b -> wf_ptr b p -> entries t b = after (live_at t) b p -> before (live_at t) b p = [] ->
  length (after (live_at t) b p) < fuel -> pos <= 32 -> length hd = 32 ->
  (keep = true -> forall e, e ∈ after (live_at t) b p -> N.of_nat (bi a e.1) = target) ->
  (keep = false -> forall i e, after (live_at t) b p !! i = Some e -> pos + i < 32 -> hd !! (pos + i) = Some (hash e.1)) ->
  exists a' b' d, second_loop fuel t sg hash keep target a b p hd pos acc = Some (a', b', acc ++ d) /\
    moved t a b p a' b' d.
Proof.
  induction fuel as [|f IH]; intros a b p pos acc W A Wb Wp E B0 F Hpos Hhd T C; [lia|]. cbn [second_loop].
  pose proof (move_to_next_spec hash t b p Wb Wp) as M. destruct (move_to_next t b p) as [p' []].
  - destruct M as (e & P & Ae). rewrite Ae in T, F, C. cbn [length] in F.
    pose proof (next_before _ _ _ _ _ Wb P Ae E) as B1.
    assert (X : exists h, (if keep then entry_byte b p'
           else if (pos =? BUCKET_LEN)%nat then e ← get b p'; Some (hash e.1)
           else hd !! pos) = Some h /\ partial_hash h = partial_hash (hash e.1) /\ (keep = false -> h = hash e.1)).
    { destruct keep.
      - rewrite (entry_byte_spec _ _ _ _ Wb P). eexists. split; [done|]. split; [apply partial_hash_idem|done].
      - exists (hash e.1). split; [|done]. destruct (Nat.eqb_spec pos BUCKET_LEN) as [->|Hp].
        + by rewrite (points_to_get _ _ _ _ P), obind.
        + specialize (C eq_refl 0 e eq_refl). rewrite Nat.add_0_r in C. apply C. unfold BUCKET_LEN in Hp. lia. }
    destruct X as (h & Eh & Ph & Hf). rewrite Eh, obind. cbn zeta.
    destruct (move_entry_spec t sg a (if keep then target else CapModel.bucket_index (sz a) h) h b p' e W A Wb P Ph)
      as (a1 & b1 & d1 & E1 & W1 & A1 & S1 & C1 & En1 & St1 & D1 & O1 & Tk).
    { destruct keep.
      - rewrite <- (T eq_refl e); [lia|set_solver].
      - by rewrite Hf. }
    rewrite E1, obind. cbn [fst snd].
    set (pos' := if keep then pos else _).
    destruct (IH a1 b1 p' pos' (acc ++ d1)) as (a2 & b2 & d2 & E2 & M2); [done|done|apply Tk|apply Tk|..].
    { rewrite (taken_entries _ _ _ _ _ _ _ Tk), B1, (taken_after _ _ _ _ _ _ _ Tk). done. }
    { by rewrite (taken_before _ _ _ _ _ _ _ Tk). }
    { rewrite (taken_after _ _ _ _ _ _ _ Tk). lia. }
    { unfold pos'. destruct keep; [done|]. destruct (Nat.eqb_spec pos BUCKET_LEN); [done|]. unfold BUCKET_LEN in *. lia. }
    { done. }
    { rewrite (taken_after _ _ _ _ _ _ _ Tk). intros -> y Hy. unfold bi. rewrite S1. apply T; [done|]. set_solver. }
    { rewrite (taken_after _ _ _ _ _ _ _ Tk). intros -> i y Hy Hlt. unfold pos' in *.
      destruct (Nat.eqb_spec pos BUCKET_LEN) as [->|Hp]; [unfold BUCKET_LEN in *; lia|].
      replace (S pos + i) with (pos + S i) in * by lia. by apply C. }
    exists a2, b2, (d1 ++ d2). split; [by rewrite E2, app_assoc|]. by eapply moved_step.
  - destruct M as [M _]. exists a, b, []. split; [by rewrite app_nil_r|].
    apply moved_done; [done|done|done|done|]. by rewrite E, M, B0.
Qed.

(** Relocating one bucket: all its entries arrive in the buckets their hashes select. *)
Lemma before_null t b : before (live_at t) b null_ptr = [].
Proof. unfold before, null_ptr; cbn [index link_ptr]. unfold ptr_cur. by rewrite Nat.eqb_refl. Qed.
Lemma relocate_bucket_spec t sg a target old_len b :
  wf_array hash t a -> (forall j x, bks a !! j = Some x -> dead x = false) -> wf_core hash t b ->
  (forall e, e ∈ entries t b -> (target <= N.of_nat (bi a e.1))%N /\
     ((alen a <= old_len)%N -> N.of_nat (bi a e.1) = target)) ->
  exists a' b' d, relocate_bucket t sg hash a target old_len b = Some (a', b', d) /\
    moved t a b null_ptr a' b' d.
Proof.
  intros W A Wb T. unfold relocate_bucket.
  pose proof (after_null t b) as An. pose proof (before_null t b) as Bn.
  assert (F : length (after (live_at t) b null_ptr) < S (blen b)).
  { rewrite An, (wf_len _ _ _ Wb). lia. }
  set (keep := (alen a <=? old_len)%N).
  assert (T' : forall e, e ∈ after (live_at t) b null_ptr -> (target <= N.of_nat (bi a e.1))%N /\ (keep = true -> N.of_nat (bi a e.1) = target)).
  { intros e He. rewrite An in He. destruct (T e He) as [T1 T2]. split; [done|]. intros Hk. apply T2.
    by apply N.leb_le. }
  destruct (_ || _).
  - set (P := fun j => exists e, e ∈ entries t b /\ bi a e.1 = j).
    destruct (collect_loop_spec t keep target a P (S (blen b)) b null_ptr (replicate 8 0) (replicate BUCKET_LEN 0%N) 0)
      as (dist & hd & E1 & _ & X2 & X3 & X4); [done|done|apply wf_null|done|..].
    { intros e He. destruct (T' e He). split; [done|]. split; [done|]. exists e. rewrite An in He. done. }
    { done. } { lia. }
    { intros i d [-> _]%lookup_replicate. done. }
    rewrite E1, obind. cbn [fst snd].
    destruct (reserve_all_spec t P dist target a W A X4) as (a1 & E2 & W1 & A1 & S1 & C1 & En1 & St1 & O1).
    { intros i (e & _ & <-). by eapply bi_lt. }
    rewrite E2, obind.
    destruct (second_loop_spec t sg keep target hd (S (blen b)) a1 b null_ptr 0 []) as (a2 & b2 & d & E3 & M);
      [done|done|done|apply wf_null|by rewrite An|done|done|lia|done|..].
    { intros Hk e He. unfold bi. rewrite S1. by apply T'. }
    { done. }
    exists a2, b2, d. split; [done|]. destruct M as [M1 M2 M3 M4 M5 M6 M7 M8 M9 M10 M11].
    split; try done.
    + congruence.
    + congruence.
    + by rewrite M5, En1.
    + by rewrite M6, St1.
    + intros j Hj. rewrite M8, O1; [done|..].
      * intros (e & He & <-). apply (Hj e); [by rewrite An|done].
      * intros e He. unfold bi. rewrite S1. by apply Hj.
  - destruct (direct_loop_spec t sg keep target (S (blen b)) a b null_ptr []) as (a2 & b2 & d & E3 & M);
      [done|done|done|apply wf_null|by rewrite An|done|done|done|].
    exists a2, b2, d. done.
Qed.
End facts.
