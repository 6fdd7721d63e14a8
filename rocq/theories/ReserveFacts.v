(** A reservation counts the free slots, and an insertion takes a free slot if there is one. *)
From stdpp Require Import prelude list.
From Coq Require Import NArith.
From Verif Require Import BucketModel BucketSpec BucketFacts BucketOps BucketOps2 BucketOps3 BucketRun BucketRunFacts ReserveSpec.

Section facts.
Context {K V : Type} `{EqDecision K} (hash : K -> N).
Implicit Types (b : bucket K V) (bl : block K V).

Lemma len_ents len t bl : len <= 32 -> wf_block hash t len bl -> length (ents stored_at len 0 bl) = count_ones (occ bl).
Proof.
  intros L W. unfold count_ones. rewrite ents_eq, Nat.sub_0_r.
  assert (forall n a, a + n = 32 -> a <= len ->
    length (omap (stored_at bl) (seq a (len - a))) = length (filter (fun i => N.testbit (occ bl) (N.of_nat i)) (seq a n))) as X.
  { induction n as [|n IH]; intros a E Ha.
    - assert (len - a = 0) as -> by lia. done.
    - change (seq a (S n)) with (a :: seq (S a) n). rewrite filter_cons. destruct (decide (a < len)) as [Hl|Hl].
      + assert (len - a = S (len - S a)) as -> by lia. cbn [seq omap list_omap].
        pose proof (wf_occ _ _ _ _ W a) as O. unfold tb in O. specialize (IH (S a) ltac:(lia) ltac:(lia)).
        destruct (stored_at bl a) as [e|] eqn:Es.
        * cbn [length]. rewrite decide_True by (apply Is_true_eq_left, O; eauto). cbn [length]. f_equal. exact IH.
        * rewrite decide_False; [exact IH|]. intros X%Is_true_eq_true. apply O in X as [? X]. done.
      + assert (a = len) as -> by lia. rewrite Nat.sub_diag. cbn [seq omap list_omap length].
        assert (forall m c, len <= c -> length (filter (fun i => N.testbit (occ bl) (N.of_nat i)) (seq c m)) = 0) as Z.
        { induction m as [|m IHm]; intros c Hc; [done|]. cbn [seq]. rewrite filter_cons, decide_False; [apply IHm; lia|].
          intros X%Is_true_eq_true. apply (wf_occ _ _ _ _ W) in X. pose proof (stored_lt hash _ _ _ _ W X). lia. }
        rewrite decide_False; [rewrite Z; [done|lia]|].
        intros X%Is_true_eq_true. apply (wf_occ _ _ _ _ W) in X. pose proof (stored_lt hash _ _ _ _ W X). lia. }
  specialize (X 32 0 eq_refl ltac:(lia)). rewrite Nat.sub_0_r in X. exact X.
Qed.
Lemma ents_le (f : block K V -> nat -> option (K * V)) len bl : length (ents f len 0 bl) <= len.
Proof.
  rewrite ents_eq, Nat.sub_0_r. generalize 0. induction len as [|n IH]; intros a; [done|]. cbn [seq omap list_omap].
  specialize (IH (S a)). destruct (f bl a); cbn [length]; lia.
Qed.
Lemma full_ents len t bl : len <= 32 -> wf_block hash t len bl -> trailing_ones (occ bl) = len -> length (ents stored_at len 0 bl) = len.
Proof.
  intros L W T. destruct (trailing_ones_spec (occ bl)) as (_ & T2 & _). rewrite T in T2.
  rewrite ents_eq, Nat.sub_0_r.
  assert (forall n a, a + n <= len -> length (omap (stored_at bl) (seq a n)) = n) as X.
  { induction n as [|n IH]; intros a Ha; [done|]. cbn [seq omap list_omap].
    destruct (proj1 (wf_occ _ _ _ _ W a) (T2 a ltac:(lia))) as [e Es]. rewrite Es. cbn [length]. f_equal. apply IH. lia. }
  apply X. lia.
Qed.

(** ** Insertions *)
Lemma links_stuck t hv e (ls : list (block K V)) : forall j ls', Forall (wf_block hash t LINKED_BUCKET_LEN) ls -> insert_links j ls hv e = Some (ls', None) ->
  length (lents stored_at ls) = LINKED_BUCKET_LEN * length ls.
Proof.
  induction ls as [|l ls IH]; intros j ls' F E; cbn [insert_links] in E; [done|].
  inversion F as [|? ? Wl F']; subst. destruct (Nat.eqb_spec (trailing_ones (occ l)) LINKED_BUCKET_LEN) as [T|T].
  - destruct (insert_links (S j) ls hv e) as [[q o]|] eqn:Eq; [|done]. rewrite obind in E. cbn [fst snd] in E. injection E as <- ->.
    rewrite lents_cons, app_length, (IH _ _ F' Eq), (full_ents _ t); auto; cbn [length]; [unfold LINKED_BUCKET_LEN; lia|unfold LINKED_BUCKET_LEN; lia].
  - destruct (insert_entry _ _ _ _ _); [|done]. rewrite obind in E. done.
Qed.
Lemma insert_takes t sg b hv e : t <> INDEX -> wf_bucket hash t b -> partial_hash hv = partial_hash (hash e.1) ->
  length (stored b) < BUCKET_LEN + LINKED_BUCKET_LEN * length (links b) ->
  exists b' p d, insert t sg b hv e = Some (b', p, d) /\ wf_bucket hash t b' /\
    length (stored b') = S (length (stored b)) /\ length (links b') = length (links b).
Proof.
  intros Nt W Hh Fr. destruct (insert_core_spec hash t b hv e W Hh) as (b' & p & E & W' & _ & _ & S' & _).
  exists b', p, []. unfold insert, insert_clear. rewrite bool_decide_false by done. cbn [andb]. rewrite obind. cbn [fst].
  rewrite E, obind. split; [done|]. split; [done|]. split; [by rewrite S'|].
  unfold insert_core in E. destruct (Nat.eqb_spec (trailing_ones (occ (main b))) BUCKET_LEN) as [T|T].
  - unfold insert_overflow in E. destruct (insert_links 0 (links b) hv e) as [[ls [[j i]|]]|] eqn:El; [| |done]; rewrite obind in E; injection E as <- <-; cbn [links].
    + destruct (insert_links_spec hash t hv e (links b) 0) as (ls2 & r & E2 & R); [apply W|done|].
      rewrite El in E2. injection E2 as <- <-. destruct R as (n & l & l' & _ & _ & -> & _). by rewrite insert_length.
    + exfalso. pose proof (links_stuck t hv e _ _ _ (wf_links _ _ _ W) El) as X.
      pose proof (full_ents BUCKET_LEN t (main b) ltac:(unfold BUCKET_LEN; lia) (wf_main _ _ _ W) T) as Y.
      unfold stored, all_ents in Fr. rewrite app_length, X, Y in Fr. lia.
  - destruct (insert_entry _ _ _ _ _); [|done]. rewrite obind in E. injection E as <- <-. done.
Qed.
Lemma put_all_takes t sg es : t <> INDEX -> forall b, wf_bucket hash t b ->
  length (stored b) + length es <= BUCKET_LEN + LINKED_BUCKET_LEN * length (links b) ->
  exists b', put_all t hash sg b es = Some b' /\ overflow_buckets b' = overflow_buckets b.
Proof.
  intros Nt. induction es as [|e es IH]; intros b W L; cbn [put_all]; [by exists b|]. cbn [length] in L.
  destruct (insert_takes t sg b (hash e.1) e Nt W eq_refl) as (b' & p & d & E & W' & S' & L'); [lia|].
  rewrite E, obind. cbn [fst]. destruct (IH b' W') as (b2 & E2 & L2); [lia|]. exists b2. split; [done|]. unfold overflow_buckets in *. lia.
Qed.

(** ** Reservations *)
Lemma reserve_links_free t ad fuel : forall c (ls : list (block K V)), Forall (wf_block hash t LINKED_BUCKET_LEN) ls -> ls <> [] ->
  length ls <= fuel -> ad + length (lents stored_at ls) <= c + LINKED_BUCKET_LEN * fuel ->
  ad + length (lents stored_at (reserve_links c ad ls fuel)) <= c + LINKED_BUCKET_LEN * length (reserve_links c ad ls fuel) \/
  ad <= c.
Proof.
  induction fuel as [|f IH]; intros c ls F N Lf La; [destruct ls; cbn in Lf; [done|lia]|].
  destruct ls as [|l ls]; [done|]. cbn [reserve_links]. inversion F as [|? ? Wl F']; subst.
  pose proof (len_ents LINKED_BUCKET_LEN t l ltac:(unfold LINKED_BUCKET_LEN; lia) Wl) as Cl.
  pose proof (ents_le stored_at LINKED_BUCKET_LEN l) as Ll.
  assert (forall ls : list (block K V), length (lents stored_at ls) <= LINKED_BUCKET_LEN * length ls) as Lle.
  { induction ls0 as [|x ls0 IHl]; [done|]. rewrite lents_cons, app_length. pose proof (ents_le stored_at LINKED_BUCKET_LEN x). cbn [length]. lia. }
  destruct (Nat.leb_spec ad (c + (LINKED_BUCKET_LEN - count_ones (occ l)))) as [C|C].
  - left. rewrite lents_cons, app_length. cbn [length]. specialize (Lle ls). lia.
  - set (ls'' := match ls with [] => _ | _ => _ end). left. rewrite lents_cons, app_length. cbn [length].
    destruct (IH (c + (LINKED_BUCKET_LEN - count_ones (occ l))) ls'') as [X|X]; [| | | |lia|lia].
    + unfold ls''. destruct ls; [|done]. constructor; [apply wf_new_block|constructor].
    + unfold ls''. by destruct ls.
    + unfold ls''. cbn [length] in Lf. destruct ls; cbn [length] in *; [|lia].
      rewrite lents_cons, app_length in La. change (lents stored_at (@nil (block K V))) with (@nil (K * V)) in La. cbn [length] in La. unfold LINKED_BUCKET_LEN in *. lia.
    + rewrite lents_cons, app_length in La. unfold ls''. destruct ls as [|l2 ls2]; [|unfold LINKED_BUCKET_LEN in *; lia].
      rewrite lents_cons, ents_new by apply stored_new. change (lents stored_at (@nil (block K V))) with (@nil (K * V)) in *. cbn [length app] in *. unfold LINKED_BUCKET_LEN in *. lia.
Qed.
Lemma reserve_free t b n : wf_bucket hash t b -> links b <> [] \/ length (stored b) + n <= BUCKET_LEN ->
  length (stored (reserve_slots b n)) + n <= BUCKET_LEN + LINKED_BUCKET_LEN * length (links (reserve_slots b n)).
Proof.
  intros W D. pose proof (len_ents BUCKET_LEN t (main b) ltac:(unfold BUCKET_LEN; lia) (wf_main _ _ _ W)) as Cm.
  pose proof (ents_le stored_at BUCKET_LEN (main b)) as Lm.
  assert (forall ls : list (block K V), length (lents stored_at ls) <= LINKED_BUCKET_LEN * length ls) as Lle.
  { induction ls as [|x ls IHl]; [done|]. rewrite lents_cons, app_length. pose proof (ents_le stored_at LINKED_BUCKET_LEN x). cbn [length]. lia. }
  unfold reserve_slots. destruct (Nat.ltb_spec (BUCKET_LEN - count_ones (occ (main b))) n) as [C|C].
  - unfold stored, all_ents. cbn [main links]. rewrite app_length.
    destruct (decide (links b = [])) as [El|Nl].
    { destruct D as [D|D]; [done|]. unfold stored, all_ents in D. rewrite El in D. change (lents stored_at (@nil (block K V))) with (@nil (K * V)) in D. rewrite app_nil_r in D. lia. }
    destruct (reserve_links_free t n (length (links b) + n + 1) (BUCKET_LEN - count_ones (occ (main b))) (links b)) as [X|X]; auto; try lia.
    + apply W.
    + specialize (Lle (links b)). unfold LINKED_BUCKET_LEN in *. lia.
  - unfold stored, all_ents. rewrite app_length. specialize (Lle (links b)). lia.
Qed.
Lemma bafter_wf t sg os : forall b l b', wf_bucket hash t b -> entries t b ≡ₚ l -> NoDup l.*1 ->
  bafter t hash sg b os = Some b' -> wf_bucket hash t b'.
Proof.
  induction os as [|o os IH]; intros b l b' W P ND; cbn [bafter]; [congruence|].
  destruct (bstep_spec hash t sg b l o W P ND) as (b1 & E & W' & P' & ND'). rewrite E, obind. cbn [fst]. eauto.
Qed.
Lemma reserved t sg os b es : t <> INDEX -> bafter t hash sg new_bucket os = Some b ->
  links b <> [] \/ length (stored b) + length es <= BUCKET_LEN ->
  exists b', put_all t hash sg (reserve_slots b (length es)) es = Some b' /\
    overflow_buckets b' = overflow_buckets (reserve_slots b (length es)).
Proof.
  intros Nt E D. assert (wf_bucket hash t b) as W.
  { eapply bafter_wf; [| | |exact E]; [apply wf_new_bucket|by rewrite entries_new|constructor]. }
  apply put_all_takes; auto; [by apply reserve_slots_spec|]. by eapply reserve_free.
Qed.
End facts.
