(** Cursor iteration over a table. *)
From Coq Require Import NArith Lia.
From stdpp Require Import numbers prelude list.
From Verif Require CapModel CapSpec CapFacts CapThms.
From Verif Require Import LruModel BucketModel BucketSpec BucketFacts BucketOps BucketOps2 BucketOps3
  MapSpec MapFacts BucketRun BucketRunFacts TableModel TableSpec TableFacts TableReloc TableHouse TableResize TableAccess
  TableOps IterSpec TableIter MapModel CursorModel CursorSpec.

Lemma start_mono (n n' i j s e s' e' : N) : (i <= j)%N -> CapModel.from_index_to_range n n' i = (s, e) ->
  CapModel.from_index_to_range n n' j = (s', e') -> (s <= s')%N.
Proof.
  unfold CapModel.from_index_to_range. destruct (n <? n')%N; intros L [= <- _] [= <- _].
  - by apply N.mul_le_mono_r.
  - destruct (decide (n / n' = 0)%N) as [->|Z]; [by destruct i, j|]. by apply N.div_le_mono.
Qed.

Section cursor.
Context {K V : Type} `{EqDecision K}.
Context (hash : K -> N).
Context (Hh : forall k, (hash k < 2 ^ 64)%N).
Implicit Types (a c o : barray K V) (x : cell K V) (tb : table K V) (b : bucket K V) (l : loc).
Implicit Types (m vis pre : list (K * V)) (strict : bool).

Local Notation idx c e := (CapModel.bucket_index (sz c) (hash e.1)).
Definition cov tb c (j : N) vis : Prop := forall e, e ∈ tents MAP tb -> (idx c e < j)%N -> e ∈ vis.
Definition fresh strict c (j : N) pre vis : Prop := strict = true -> forall e, e ∈ vis -> e ∈ pre \/ (idx c e < j)%N.

(** The cursor is at an entry [e]. *)
Definition at_entry strict tb (q : cursor) vis (e : K * V) : Prop :=
  exists c b i pre, q.1 = (Cur, i) /\ cur tb = Some c /\ owns hash tb (Cur, i) b /\
    points_to MAP b q.2 e /\ entries MAP b = pre ++ e :: after (live_at MAP) b q.2 /\
    (forall y, y ∈ pre -> y ∈ vis) /\ cov tb c i vis /\ fresh strict c i pre vis.
(** The cursor is in a bucket whose entries before it have been seen. *)
Definition in_bucket strict tb (q : cursor) vis : Prop :=
  exists c b i pre, q.1 = (Cur, i) /\ cur tb = Some c /\ owns hash tb (Cur, i) b /\
    wf_ptr b q.2 /\ entries MAP b = pre ++ after (live_at MAP) b q.2 /\
    (forall y, y ∈ pre -> y ∈ vis) /\ cov tb c i vis /\ fresh strict c i pre vis /\ (strict = true -> pre <> []).
Definition reached strict tb (r : option cursor) vis : Prop :=
  match r with
  | None => forall e, e ∈ tents MAP tb -> e ∈ vis
  | Some q => exists e, at_entry strict tb q vis e
  end.

Lemma owns_cur tb i b c : wf_table hash MAP tb -> cur tb = Some c -> owns hash tb (Cur, i) b ->
  (i < alen c)%N /\ forall e, e ∈ tents MAP tb -> (e ∈ entries MAP b <-> idx c e = i).
Proof.
  intros W C Ow. destruct (wf_tab_cur _ _ _ _ W C) as (Wc & _). split.
  - destruct Ow as (c' & x & C' & X & _). rewrite C in C'. injection C' as <-. apply cell_at_lt in X. rewrite (wa_len _ _ _ Wc) in X. cbn [snd] in X. lia.
  - intros e He. destruct (owns_split hash MAP tb (Cur, i) b W Ow) as (R & RS & TE & _ & Nk & _).
    split.
    + intros Hb. destruct (owns_lkey hash MAP tb (Cur, i) b e W Ow Hb) as (a & A & I). cbn in A, I. congruence.
    + intros I. rewrite TE in He. apply elem_of_app in He as [He|He]; [done|]. exfalso.
      apply (Nk e He). exists c. done.
Qed.

Lemma seek_spec strict sg vis n : forall i tb c, wf_table hash MAP tb -> cur tb = Some c ->
  (i + N.of_nat n = alen c)%N -> cov tb c i vis -> fresh strict c i [] vis ->
  exists tb' r, seek sg hash tb (TableModel.range i (i + N.of_nat n)) = Some (tb', r) /\
    same hash MAP tb tb' /\ reached strict tb' r vis.
Proof.
  induction n as [|n IH]; intros i tb c W C Hn Cv Fr.
  - replace (TableModel.range i (i + N.of_nat 0)) with (@nil N).
    2:{ unfold TableModel.range. by replace (N.to_nat (i + N.of_nat 0 - i)) with 0 by lia. }
    exists tb, None. split; [done|]. split; [by apply same_refl|].
    intros e He. apply Cv; [done|]. destruct (wf_tab_cur _ _ _ _ W C) as (Wc & _).
    pose proof (index_lt hash Hh MAP c e.1 Wc). lia.
  - rewrite range_cons. cbn [seek].
    destruct (prepare_spec hash Hh MAP sg tb c i W C) as (tb1 & E1 & S1 & R1); [lia|]. rewrite E1, obind.
    destruct (st_cur _ _ _ _ S1 c C) as (c1 & C1 & Z1 & _).
    pose proof (sm_wf _ _ _ _ (st_same _ _ _ _ S1)) as W1. destruct (wf_tab_cur _ _ _ _ W1 C1) as (Wc1 & _).
    destruct (cell_some hash MAP c1 i Wc1) as (x & X); [unfold alen; rewrite Z1; unfold alen in Hn; lia|].
    assert (Ow : owns hash tb1 (Cur, i) (bkt x)) by (by exists c1, x).
    destruct (owns_lock hash MAP tb1 _ _ W1 Ow) as [Lk Wb]. rewrite Lk, obind.
    destruct (owns_cur tb1 i (bkt x) c1 W1 C1 Ow) as [_ Hin].
    assert (Cv1 : cov tb1 c1 i vis).
    { intros e He. rewrite Z1. apply Cv. by rewrite <- (sm_ents _ _ _ _ (st_same _ _ _ _ S1)). }
    assert (Fr1 : fresh strict c1 i [] vis) by (unfold fresh; by rewrite Z1).
    pose proof (move_to_next_spec hash MAP (bkt x) null_ptr ltac:(apply Wb) (wf_null _)) as M.
    rewrite after_null in M. destruct (move_to_next MAP (bkt x) null_ptr) as [p []].
    + destruct M as (e & Pt & En). exists tb1, (Some ((Cur, i), p)). split; [done|]. split; [apply S1|].
      exists e, c1, (bkt x), i, []. repeat (split; [done|]). split; [set_solver|done].
    + destruct M as [En _].
      destruct (IH (i + 1)%N tb1 c1 W1 C1) as (tb2 & r & E2 & S2 & R2).
      * unfold alen. rewrite Z1. unfold alen in Hn. lia.
      * intros e He Hlt. apply Cv1; [done|]. destruct (decide (idx c1 e = i)) as [Eq|]; [|lia].
        apply Hin in Eq; [|done]. rewrite En in Eq. by apply elem_of_nil in Eq.
      * intros St e He. destruct (Fr1 St e He) as [?|?]; [by left|right; lia].
      * rewrite E2. exists tb2, r. split; [done|]. split; [|done]. eapply same_trans; [apply S1|done].
Qed.

Lemma seek_from_spec strict sg tb vis (start len : N) : wf_table hash MAP tb ->
  (forall c, cur tb = Some c -> exists s : N, (s <= alen c)%N /\ cov tb c s vis /\ fresh strict c s [] vis /\
     s = if ((len =? 0) || (len =? alen c))%N then start else (CapModel.from_index_to_range len (alen c) start).1) ->
  exists tb' r, seek_from sg hash tb start len = Some (tb', r) /\
    same hash MAP tb tb' /\ reached strict tb' r vis.
Proof.
  intros W H. unfold seek_from. destruct (cur tb) as [c|] eqn:C.
  - destruct (H c eq_refl) as (s & L & Cv & Fr & Es). rewrite <- Es. 
    destruct (seek_spec strict sg vis (N.to_nat (alen c - s)) s tb c W C) as (tb' & r & E & S & R); [lia|done|done|].
    replace (s + N.of_nat (N.to_nat (alen c - s)))%N with (alen c) in E by lia. eauto.
  - exists tb, None. split; [done|]. split; [by apply same_refl|]. intros e. rewrite (wf_none_tents hash MAP tb W C). set_solver.
Qed.

Lemma begin_spec sg tb strict : wf_table hash MAP tb ->
  exists tb' r, cursor_begin sg hash tb = Some (tb', r) /\ same hash MAP tb tb' /\ reached strict tb' r [].
Proof.
  intros W. apply seek_from_spec; [done|]. intros c C. exists 0%N. cbn [N.eqb orb].
  split; [lia|]. split; [intros ???; lia|]. split; [intros ???; set_solver|done].
Qed.

Lemma next_spec strict sg tb q vis : wf_table hash MAP tb -> in_bucket strict tb q vis ->
  exists tb' r, cursor_next sg hash tb q = Some (tb', r) /\ same hash MAP tb tb' /\ reached strict tb' r vis.
Proof.
  intros W (c & b & i & pre & Q & C & Ow & Wp & En & Pv & Cv & Fr & Ne). unfold cursor_next. rewrite Q. cbn [fst snd].
  destruct (owns_lock hash MAP tb _ _ W Ow) as [Lk Wb]. rewrite Lk, obind.
  destruct (owns_cur tb i b c W C Ow) as [Hi Hin].
  pose proof (move_to_next_spec hash MAP b q.2 ltac:(apply Wb) Wp) as M.
  destruct (move_to_next MAP b q.2) as [p []].
  - destruct M as (e & Pt & Af). exists tb, (Some ((Cur, i), p)). split; [done|]. split; [by apply same_refl|].
    exists e, c, b, i, pre. cbn [fst snd]. rewrite <- Af. repeat (split; [done|]). done.
  - destruct M as [Af _]. rewrite Af, app_nil_r in En. cbn [loc_array]. rewrite C, obind.
    assert (Cv1 : cov tb c (i + 1) vis).
    { intros e He Hlt. destruct (decide (idx c e = i)) as [Eq|]; [|apply Cv; [done|lia]].
      apply Pv. rewrite <- En. by apply Hin. }
    assert (All : forall y, y ∈ tents MAP tb -> (i + 1)%N = alen c -> y ∈ vis).
    { intros y Hx Ei. apply Cv1; [done|]. rewrite Ei. apply (index_lt hash Hh MAP). by apply (wf_tab_cur hash MAP tb). }
    destruct (wf_tab_cur _ _ _ _ W C) as (Wc & _).
    assert (Pos : (alen c =? 0)%N = false) by (apply N.eqb_neq; lia).
    destruct (blen b =? 0) eqn:Z.
    + assert (strict = false) as ->.
      { destruct strict; [|done]. exfalso. apply Ne; [done|]. rewrite <- En. apply nil_length_inv.
        rewrite <- (wf_len hash MAP b) by apply Wb. by apply Nat.eqb_eq. }
      cbn [locked_try_shrink fst snd]. destruct (try_shrink_spec hash Hh MAP tb c i W C Hi) as (tb1 & E1 & S1 & Oc).
      rewrite E1, obind. destruct (N.eqb_spec (i + 1) (alen c)) as [Ei|Ei].
      * exists tb1, None. split; [done|]. split; [done|]. intros e. rewrite (sm_ents _ _ _ _ S1). intros. by apply All.
      * destruct (seek_from_spec false sg tb1 vis (i + 1) (alen c) (sm_wf _ _ _ _ S1)) as (tb2 & r & E2 & S2 & R2).
        { intros c1 C1. destruct Oc as [->|[(_ & T & D)|Rz]].
          - assert (c1 = c) as -> by congruence. exists (i + 1)%N. rewrite N.eqb_refl, orb_true_r. by split; [lia|].
          - destruct D. congruence.
          - destruct Rz as (c' & a & C' & O' & A & O1 & Ea). assert (c' = c) as -> by congruence. assert (a = c1) as -> by congruence.
            destruct (wf_tab_cur _ _ _ _ (sm_wf _ _ _ _ S1) C1) as (Wc1 & _).
            exists (if ((alen c =? 0) || (alen c =? alen c1))%N then (i + 1)%N else (CapModel.from_index_to_range (alen c) (alen c1) (i + 1)).1).
            assert (RG : forall k : K, exists s e, CapModel.from_index_to_range (alen c) (alen c1) (CapModel.bucket_index (sz c) (hash k)) = (s, e) /\
               (s <= CapModel.bucket_index (sz c1) (hash k))%N /\ (CapModel.bucket_index (sz c1) (hash k) < e)%N /\ (e <= alen c1)%N).
            { intros k. pose proof (CapFacts.range_contains_index (sz c) (sz c1) (hash k) (table_wf _ (wa_table _ _ _ Wc))
                (table_wf _ (wa_table _ _ _ Wc1)) (Hh k)) as RC.
              change (CapModel.array_len (sz c)) with (alen c) in RC. change (CapModel.array_len (sz c1)) with (alen c1) in RC.
              destruct (CapModel.from_index_to_range _ _ _) as [s e]. exists s, e. split; [done|]. lia. }
            rewrite Pos. cbn [orb]. destruct (N.eqb_spec (alen c) (alen c1)) as [El|El].
            + split; [rewrite <- El; lia|]. split; [|split; [by intros ?|done]].
              intros e He Hl. apply Cv1; [by rewrite <- (sm_ents _ _ _ _ S1)|].
              destruct (RG e.1) as (s & z & Er & ? & ? & _). rewrite El in Er. unfold CapModel.from_index_to_range in Er.
              rewrite N.ltb_irrefl, N.div_same in Er by lia. injection Er as <- <-. rewrite N.div_1_r in *. lia.
            + split; [|split; [|split; [by intros ?|done]]].
              * destruct (CapFacts.bucket_index_surj (sz c) (i + 1) (table_wf _ (wa_table _ _ _ Wc))) as (h & Hlt & Eh).
                { change (CapModel.array_len (sz c)) with (alen c). lia. }
                pose proof (CapFacts.range_contains_index (sz c) (sz c1) h (table_wf _ (wa_table _ _ _ Wc))
                (table_wf _ (wa_table _ _ _ Wc1)) Hlt) as RC. rewrite Eh in RC.
                change (CapModel.array_len (sz c)) with (alen c) in RC. change (CapModel.array_len (sz c1)) with (alen c1) in RC.
                destruct (CapModel.from_index_to_range _ _ _) as [s e]. cbn [fst]. lia.
              * intros e He Hl. rewrite (sm_ents _ _ _ _ S1) in He. apply Cv1; [done|].
                destruct (N.lt_ge_cases (idx c e) (i + 1)) as [?|Ge]; [done|]. exfalso.
                destruct (RG e.1) as (s & z & Er & ? & ? & _).
                destruct (CapModel.from_index_to_range (alen c) (alen c1) (i + 1)) as [s1 z1] eqn:E3. cbn [fst] in Hl.
                pose proof (start_mono _ _ _ _ _ _ _ _ Ge E3 Er). lia. }
        rewrite E2. exists tb2, r. split; [done|]. split; [|done]. by eapply same_trans.
    + rewrite obind. destruct (N.eqb_spec (i + 1) (alen c)) as [Ei|Ei].
      * exists tb, None. split; [done|]. split; [by apply same_refl|]. intros e ?. by apply All.
      * apply seek_from_spec; [done|]. intros c1 C1. assert (c1 = c) as -> by congruence.
        exists (i + 1)%N. rewrite N.eqb_refl, orb_true_r. split; [lia|]. split; [done|]. split; [|done].
        intros St e He. right. destruct (Fr St e He) as [Hp|?]; [|lia].
        rewrite <- En in Hp. assert (e ∈ tents MAP tb) as Ht.
        { destruct (owns_split hash MAP tb (Cur, i) b W Ow) as (R & RS & TE & _). rewrite TE. apply elem_of_app. by left. }
        apply Hin in Hp; [|done]. lia.
Qed.

Lemma keep_in_bucket strict tb q vis e : wf_table hash MAP tb -> at_entry strict tb q vis e ->
  in_bucket strict tb q (vis ++ [e]).
Proof.
  intros W (c & b & i & pre & Q & C & Ow & Pt & En & Pv & Cv & Fr). destruct (owns_lock hash MAP tb _ _ W Ow) as [Lk Wb].
  exists c, b, i, (pre ++ [e]). split; [done|]. split; [done|]. split; [done|].
  split; [apply (points_to_wf_ptr hash MAP b q.2 e); [apply Wb|done]|]. split; [by rewrite <- app_assoc|].
  split; [|split; [|split]].
  - intros y. rewrite !elem_of_app. intros [?|?]; [left; by apply Pv|by right].
  - intros y Hy Hl. apply elem_of_app. left. by apply Cv.
  - intros St y. rewrite !elem_of_app. intros [Hy|?]; [|by left; right]. destruct (Fr St y Hy); [by left; left|by right].
  - intros _ F. by destruct pre.
Qed.

Lemma entry_facts strict tb q vis e : wf_table hash MAP tb -> at_entry strict tb q vis e ->
  (exists b, lock tb q.1 = Some b /\ get b q.2 = Some e) /\ e ∈ tents MAP tb /\ (strict = true -> e ∉ vis).
Proof.
  intros W (c & b & i & pre & Q & C & Ow & Pt & En & Pv & Cv & Fr). rewrite Q. 
  destruct (owns_lock hash MAP tb _ _ W Ow) as [Lk Wb].
  destruct (owns_split hash MAP tb (Cur, i) b W Ow) as (R & RS & TE & _ & Nk & PB).
  assert (Hb : e ∈ entries MAP b) by (rewrite En; set_solver).
  assert (He : e ∈ tents MAP tb) by (rewrite TE; apply elem_of_app; by left).
  split; [|split; [done|]].
  - exists b. split; [done|]. by apply (points_to_get MAP).
  - intros St Hv. destruct (owns_cur tb i b c W C Ow) as [_ Hin]. destruct (Fr St e Hv) as [Hp|Hl].
    + assert (NoDup (entries MAP b)) as ND.
      { pose proof (wt_keys _ _ _ W) as ND. rewrite TE, fmap_app in ND. apply NoDup_app in ND as (ND & _).
        by apply NoDup_fmap_1 in ND. }
      rewrite En in ND. apply NoDup_app in ND as (_ & Dj & _). apply (Dj e Hp). set_solver.
    + apply Hin in Hb; [|done]. lia.
Qed.

Lemma remove_in_bucket tb q vis e m : wf_table hash MAP tb -> at_entry false tb q vis e -> tents MAP tb ≡ₚ m ->
  exists b b' p' tb', lock tb q.1 = Some b /\ remove MAP b q.2 = Some (b', p', e) /\ set_loc tb q.1 b' = Some tb' /\
    step hash MAP tb tb' (del e.1 m) [] /\ in_bucket false tb' (q.1, p') (vis ++ [e]).
Proof.
  intros W (c & b & i & pre & Q & C & Ow & Pt & En & Pv & Cv & Fr) P. rewrite Q.
  destruct (owns_lock hash MAP tb _ _ W Ow) as [Lk Wb].
  assert (Wc : wf_core hash MAP b) by apply Wb.
  pose proof (points_to_in hash MAP b q.2 e Wc Pt) as Hb. destruct e as [k v].
  destruct (owns_assoc hash MAP tb (Cur, i) b k m W Ow (owns_lkey hash MAP tb (Cur, i) b (k, v) W Ow Hb) P)
    as (R & RS & Pm & NR & ND & A & _ & PB).
  destruct (points_assoc hash MAP b k v q.2 Wb ND Pt) as [A' D].
  destruct (remove_spec hash MAP b q.2 (k, v) Wb Pt) as (b' & p' & E' & W' & T).
  pose proof (taken_entries _ _ _ _ _ _ _ T) as E0. pose proof E0 as E1. rewrite <- D in E1.
  destruct (PB b' W') as (tb1 & PBk).
  { intros e He. right. rewrite E1 in He. apply (del_sub k). apply elem_of_list_fmap. eauto. }
  { rewrite E1. by apply del_NoDup. }
  assert (S1 : step hash MAP tb tb1 (del k m) []).
  { eapply put_step; [done|by apply same_refl|exact PBk|]. rewrite E1. symmetry. by apply (del_out k v). }
  exists b, b', p', tb1. split; [done|]. split; [done|]. split; [apply PBk|]. split; [done|].
  destruct Ow as (c' & x & C' & X & Bx & Rd). assert (c' = c) as -> by congruence.
  pose proof (pb_other _ _ _ _ _ _ _ _ PBk c i x eq_refl C X) as C1.
  exists (set_cell c i (Cell b' (dead x))), b', i, pre. cbn [fst snd]. split; [done|]. split; [done|].
  split; [apply PBk|]. split; [apply T|].
  assert (Bp : before (live_at MAP) b q.2 = pre).
  { pose proof (points_to_split hash MAP b q.2 _ Wc Pt) as Sp. rewrite En in Sp.
    by apply app_inv_tail in Sp. }
  split; [by rewrite E0, (taken_after _ _ _ _ _ _ _ T), Bp|].
  split; [|split; [|split; [by intros ?|done]]].
  - intros y Hy. apply elem_of_app. left. by apply Pv.
  - intros y Hy Hl. apply elem_of_app. left. apply Cv; [|done].
    rewrite (sp_ents _ _ _ _ _ _ S1) in Hy. rewrite P. unfold del in Hy. by apply elem_of_list_filter in Hy as [_ Hy].
Qed.

Lemma walk_spec {S} sg (keep : S -> K * V -> S * bool) n : forall s tb q vis m, wf_table hash MAP tb -> tents MAP tb ≡ₚ m ->
  reached false tb q vis ->
  exists tb' vs rs fin m', walk n sg hash keep s tb q = Some (tb', vs, rs, fin) /\
    rs = decide_all keep s vs /\ m ≡ₚ rs ++ m' /\ step hash MAP tb tb' m' [] /\ (forall e, e ∈ vs -> e ∈ m) /\
    (fin = true -> forall e, e ∈ m -> e ∈ vis ++ vs).
Proof.
  induction n as [|n IH]; intros s tb q vis m W P Rc; (destruct q as [q|]; cbn [walk]; cbn [reached] in Rc; [|
   exists tb, [], [], true, m; split; [done|]; split; [done|]; split; [done|];
      split; [by apply step_same; [done| |apply same_refl]|]; split; [set_solver|];
      intros _ e; rewrite <- P, app_nil_r; apply Rc]).
  - exists tb, [], [], false, m. split; [done|]; split; [done|]; split; [done|].
    split; [by apply step_same; [done| |apply same_refl]|]; split; [set_solver|done].
  - destruct Rc as (e & At). destruct (entry_facts _ _ _ _ _ W At) as ((b & Lk & Gt) & He & _).
    rewrite Lk, obind, Gt, obind. destruct (keep s e).2 eqn:Kp.
    + destruct (next_spec false sg tb q (vis ++ [e]) W (keep_in_bucket _ _ _ _ _ W At)) as (tb1 & r & E1 & S1 & R1).
      rewrite E1, obind. cbn [fst snd].
      destruct (IH (keep s e).1 tb1 r (vis ++ [e]) m (sm_wf _ _ _ _ S1)) as (tb2 & vs & rs & fin & m' & E2 & Dd & Pm & St & In1 & Al).
      { by rewrite (sm_ents _ _ _ _ S1). } { done. }
      rewrite E2, obind. cbn [fst snd]. exists tb2, (e :: vs), rs, fin, m'. split; [done|].
      cbn [decide_all]. rewrite Kp. split; [done|]. split; [done|].
      split; [change (@nil (K * V)) with (@nil (K * V) ++ []); eapply step_trans; [by apply step_same|exact St]|].
      split; [intros y Hy; apply elem_of_cons in Hy as [->|Hy]; [by rewrite <- P|by apply In1]|].
      intros F y Hy. specialize (Al F y Hy). by rewrite <- app_assoc in Al.
    + unfold cursor_remove. destruct (remove_in_bucket tb q vis e m W At P) as (b0 & b' & p' & tb0 & Lk0 & Rm & Sl & St0 & Ib).
      rewrite Lk0, obind, Rm, obind. cbn [fst snd]. rewrite Sl, obind.
      destruct (next_spec false sg tb0 (q.1, p') (vis ++ [e]) (sp_wf _ _ _ _ _ _ St0) Ib) as (tb1 & r & E1 & S1 & R1).
      rewrite E1, obind, obind. cbn [fst snd].
      destruct (IH (keep s e).1 tb1 r (vis ++ [e]) (del e.1 m) (sm_wf _ _ _ _ S1)) as (tb2 & vs & rs & fin & m' & E2 & Dd & Pm & St & In1 & Al).
      { rewrite (sm_ents _ _ _ _ S1). apply St0. } { done. }
      rewrite E2, obind. cbn [fst snd]. exists tb2, (e :: vs), (e :: rs), fin, m'. split; [done|].
      cbn [decide_all]. rewrite Kp. split; [by rewrite Dd|].
      assert (Pe : m ≡ₚ e :: del e.1 m).
      { pose proof (wt_keys _ _ _ W) as ND. rewrite P in ND. rewrite P in He.
        apply elem_of_list_split in He as (l1 & l2 & ->). destruct e as [k v]. cbn [fst]. rewrite del_split by done.
        symmetry. apply Permutation_middle. }
      split; [rewrite Pe at 1; cbn [app]; by rewrite Pm|].
      split; [change (@nil (K * V)) with (@nil (K * V) ++ []); eapply step_trans; [exact St0|];
              change (@nil (K * V)) with (@nil (K * V) ++ []); eapply step_trans; [apply step_same; [done|apply St0|exact S1]|exact St]|].
      split.
      * intros y Hy. rewrite Pe. apply elem_of_cons in Hy as [->|Hy]; [left|]. right. by apply In1.
      * intros F y Hy. rewrite Pe in Hy. apply elem_of_cons in Hy as [->|Hy]; [set_solver|].
        specialize (Al F y Hy). by rewrite <- app_assoc in Al.
Qed.

Lemma walk_keep_spec {S} sg (keep : S -> K * V -> S * bool) n : (forall s e, (keep s e).2 = true) -> forall s tb q vis m,
  wf_table hash MAP tb -> tents MAP tb ≡ₚ m -> reached true tb q vis -> NoDup vis -> (forall e, e ∈ vis -> e ∈ m) ->
  length m < n + length vis ->
  exists tb' vs, walk n sg hash keep s tb q = Some (tb', vs, [], true) /\ step hash MAP tb tb' m [] /\ vis ++ vs ≡ₚ m.
Proof.
  intros Kp. induction n as [|n IH]; intros s tb q vis m W P Rc ND In1 Ln.
  all: assert (NDm : NoDup m) by (pose proof (wt_keys _ _ _ W) as X; rewrite P in X; by apply NoDup_fmap_1 in X).
  all: assert (Le : length vis <= length m) by (apply submseteq_length, NoDup_submseteq; done).
  1: lia.
  destruct q as [q|]; cbn [walk]; cbn [reached] in Rc.
  - destruct Rc as (e & At). destruct (entry_facts _ _ _ _ _ W At) as ((b & Lk & Gt) & He & Fr). specialize (Fr eq_refl).
    rewrite Lk, obind, Gt, obind, Kp.
    destruct (next_spec true sg tb q (vis ++ [e]) W (keep_in_bucket _ _ _ _ _ W At)) as (tb1 & r & E1 & S1 & R1).
    rewrite E1, obind. cbn [fst snd].
    destruct (IH (keep s e).1 tb1 r (vis ++ [e]) m (sm_wf _ _ _ _ S1)) as (tb2 & vs & E2 & St & Pm).
    { by rewrite (sm_ents _ _ _ _ S1). } { done. } { apply NoDup_app. split; [done|]. split; [set_solver|apply NoDup_singleton]. }
    { intros y Hy. apply elem_of_app in Hy as [Hy|Hy]; [by apply In1|]. apply elem_of_list_singleton in Hy as ->. by rewrite <- P. }
    { rewrite app_length. cbn [length]. lia. }
    rewrite E2, obind. cbn [fst snd]. exists tb2, (e :: vs). split; [done|].
    split; [change (@nil (K * V)) with (@nil (K * V) ++ []); eapply step_trans; [by apply step_same|exact St]|].
    by rewrite <- app_assoc in Pm.
  - exists tb, []. split; [done|]. split; [by apply step_same; [done| |apply same_refl]|]. rewrite app_nil_r.
    apply NoDup_Permutation; [done..|]. intros y. split; [apply In1|]. rewrite <- P. apply Rc.
Qed.

Lemma walk_map_spec {S} sg (keep : S -> K * V -> S * bool) n s tb m : wf_table hash MAP tb -> tents MAP tb ≡ₚ m ->
  exists tb' vs rs fin m', walk_map n sg hash keep s tb = Some (tb', vs, rs, fin) /\
    rs = decide_all keep s vs /\ m ≡ₚ rs ++ m' /\ step hash MAP tb tb' m' [] /\ (forall e, e ∈ vs -> e ∈ m) /\
    (fin = true -> forall e, e ∈ m -> e ∈ vs).
Proof.
  intros W P. unfold walk_map. destruct (begin_spec sg tb false W) as (tb1 & r & E1 & S1 & R1). rewrite E1, obind. cbn [fst snd].
  destruct (walk_spec sg keep n s tb1 r [] m (sm_wf _ _ _ _ S1)) as (tb2 & vs & rs & fin & m' & E2 & Dd & Pm & St & In1 & Al).
  { by rewrite (sm_ents _ _ _ _ S1). } { done. }
  exists tb2, vs, rs, fin, m'. split; [done|]. split; [done|]. split; [done|]. split; [|done].
  change (@nil (K * V)) with (@nil (K * V) ++ []); eapply step_trans; [by apply step_same|exact St].
Qed.
Lemma walk_map_keep_spec {S} sg (keep : S -> K * V -> S * bool) n s tb m : (forall s e, (keep s e).2 = true) ->
  wf_table hash MAP tb -> tents MAP tb ≡ₚ m -> length m < n ->
  exists tb' vs, walk_map n sg hash keep s tb = Some (tb', vs, [], true) /\ step hash MAP tb tb' m [] /\ vs ≡ₚ m.
Proof.
  intros Kp W P Ln. unfold walk_map. destruct (begin_spec sg tb true W) as (tb1 & r & E1 & S1 & R1). rewrite E1, obind. cbn [fst snd].
  destruct (walk_keep_spec sg keep n Kp s tb1 r [] m (sm_wf _ _ _ _ S1)) as (tb2 & vs & E2 & St & Pm).
  { by rewrite (sm_ents _ _ _ _ S1). } { done. } { constructor. } { set_solver. } { cbn [length]. lia. }
  exists tb2, vs. split; [done|]. split; [|done].
  change (@nil (K * V)) with (@nil (K * V) ++ []); eapply step_trans; [by apply step_same|exact St].
Qed.
End cursor.
