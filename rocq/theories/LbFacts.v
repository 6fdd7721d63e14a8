(** In runs without rollbacks, a range stays above its lower bound and ascends. *)
From Coq Require Import List Arith Bool Lia Sorted.
From Verif Require Import TcModel TcRoute TcSpec TcInv TcTree TcFrame TcFz TcExt TcSys TcKeep TcOps TcRun TiModel TiSpec TiInv TiConv TiList TiMove TiBlk TiStep TiSys TiExt TiTs TiCur TiSeek TiLoop TiJob TiWay TiMark TiOrd TiAsc RgModel LbModel LbSpec.
Import ListNotations.

Section facts.
Context {K V : Type} (leb : K -> K -> bool) (HO : tord leb).
Notation SI := (SI leb).
Notation MI := (MI leb).
Notation W := (W leb).
Notation lt_k := (lt_k leb).
Notation AI := (AI leb).
Implicit Types (s : ls K V) (x : iter K V) (e : K * V) (k : K) (c n i : nat) (r : lr K V).

(** ** The search for the start *)
Definition kidof s n c : Prop := n < fresh (tc s) /\ c < fresh (tc s) /\ lvl (hp (tc s) n) = S (lvl (hp (tc s) c)).
Definition dok s (d : @dsc K) : Prop :=
  match d with
  | DLoad _ n _ c _ => kidof s n c
  | MLoad _ _ n _ _ _ c _ => kidof s n c
  | DLeaf _ _ c _ | MScan _ c _ | MLink _ c _ | MHop _ c _ => leaf s c
  | _ => True
  end.
Lemma kid_in s n c : SI s -> In c (kids (hp (tc s) n)) -> kidof s n c.
Proof.
  intros I Hc. assert (n < fresh (tc s)) as Hn.
  { destruct (Nat.lt_ge_cases n (fresh (tc s))); auto. rewrite (f_blank _ _ (i_f leb _ (proj1 I))) in Hc by auto. destruct Hc. }
  destruct (kid_lvl leb _ _ _ _ (i_h leb _ (proj1 I)) n c Hn Hc). repeat split; auto.
Qed.
Lemma slot_kid s n j c : SI s -> slot_child (cells (nd s n)) j = Some c -> kidof s n c.
Proof.
  intros I H. apply sc_in in H as (e & He & _ & <-). apply kid_in; auto. unfold kids. apply in_or_app. left. unfold childs. now apply in_map.
Qed.
Lemma ub_kid s n c : SI s -> ub (nd s n) = UTo c -> kidof s n c.
Proof. intros I H. apply kid_in; auto. unfold kids, nd in *. rewrite H. apply in_or_app. right. now left. Qed.
Lemma kid_leaf s n c : kidof s n c -> lvl (nd s n) = 1 -> leaf s c.
Proof. unfold kidof, leaf, nd. intros (_ & F & L) E. split; auto. lia. Qed.
Lemma dok_fall s rt st d : fall rt st = RGo (V:=V) d -> dok s d.
Proof. destruct st; cbn; intros [= <-]; exact I. Qed.
Lemma dok_nomin s rt (k : cont) d : no_min rt k = RGo (V:=V) d -> dok s d.
Proof. destruct k; cbn; [apply dok_fall|discriminate]. Qed.
Lemma fall_at rt st c e rest : fall rt st <> RAt (K:=K) c e rest.
Proof. destruct st; discriminate. Qed.
Lemma nomin_at rt (k : cont) c e rest : no_min rt k <> RAt (K:=K) c e rest.
Proof. destruct k; cbn; [apply fall_at|discriminate]. Qed.
Lemma less_suffix (es : list (K * V)) k e (r : list (K * V)) : less_entry leb es k = Some (e, r) -> exists p, es = p ++ e :: r.
Proof.
  revert e r. induction es as [|a es IH]; cbn; intros e r H; [discriminate|]. destruct (ltb leb (fst a) k); [|discriminate].
  destruct (less_entry leb es k) as [[e1 r1]|].
  - injection H as <- <-. destruct (IH _ _ eq_refl) as [p ->]. now exists (a :: p).
  - injection H as <- <-. now exists [].
Qed.
Definition dgood s (q : @dres K V) : Prop :=
  match q with
  | RGo d => dok s d
  | RAt c e rest => leaf s c /\ exists p, sortk leb (ents (hp (tc s) c)) = p ++ e :: rest
  | ROver => True
  end.
Lemma good_fall s rt st : dgood s (fall rt st).
Proof. destruct st; exact I. Qed.
Lemma good_nomin s rt (k : cont) : dgood s (no_min rt k).
Proof. destruct k; [apply good_fall|exact I]. Qed.
Lemma dstep_ok b s d : SI s -> dok s d -> dgood s (dstep leb b s d).
Proof.
  intros I D. destruct d as [|rt n st|rt n M st|rt n M c st|rt n c st|rt f n k|rt f n M [|[q j] r] k|rt f n M r u c k|rt c k|rt c k|rt c k]; cbn [dstep].
  - destruct (root (tc s)); [|exact Logic.I]. destruct (lkey b); exact Logic.I.
  - exact Logic.I.
  - destruct (lkey b); [|exact Logic.I]. destruct (less_slot leb M k); [|exact Logic.I].
    destruct (slot_child (cells (nd s n)) n0) eqn:E; [|exact Logic.I]. cbn. eapply slot_kid; eauto.
  - destruct (meta_eqb _ _ _); [|exact Logic.I]. destruct (Nat.eqb_spec (lvl (nd s n)) 1); [|exact Logic.I]. cbn in *. eapply kid_leaf; eauto.
  - destruct (lkey b); [|exact Logic.I]. destruct (less_entry leb _ k) as [[e r]|] eqn:E; [|exact Logic.I].
    split; [exact D|]. eapply less_suffix; exact E.
  - exact Logic.I.
  - destruct (ub (nd s n)) eqn:E.
    + destruct f as [|[[? ?] ?] ?]; [apply good_nomin|exact Logic.I].
    + destruct f as [|[[? ?] ?] ?]; [apply good_nomin|exact Logic.I].
    + cbn. eapply ub_kid; eauto.
  - destruct (slot_child (cells (nd s n)) j) eqn:E; [|exact Logic.I]. cbn. eapply slot_kid; eauto.
  - destruct (meta_eqb _ _ _); [|exact Logic.I]. destruct (Nat.eqb_spec (lvl (nd s n)) 1); [|exact Logic.I]. cbn in *. eapply kid_leaf; eauto.
  - destruct (sortk leb (ents (nd s c))) as [|e r] eqn:E; [exact D|].
    assert (dgood s (RAt c e r)) as G by (split; [exact D|]; exists []; exact E).
    destruct k; [|exact G]. destruct (lkey b); [|exact Logic.I]. destruct (leb (fst e) k); [exact G|apply good_fall].
  - destruct (link s c) as [z|] eqn:E; [|apply good_nomin]. cbn. apply (nx_lf leb s c z I). now constructor.
  - destruct (dl s c); exact D.
Qed.

(** ** The iterator *)
Definition run_pos (p : @ipc K V) : Prop :=
  match p with IAt _ _ (Some _) | ILink _ _ _ | IHop _ _ _ | INext _ _ _ | ISnap _ _ _ _ | IEnd _ => True | _ => False end.
Lemma ai_start s c e rest b : SI s -> MI s -> leaf s c -> (exists p, sortk leb (ents (hp (tc s) c)) = p ++ e :: rest) ->
  AI s (Iter (IAt c rest (Some (fst e))) b [e]).
Proof.
  intros I M L [p E]. assert (StronglySorted lt_k (e :: rest)) as S.
  { assert (StronglySorted lt_k (sortk leb (ents (hp (tc s) c)))) as Ss.
    { apply srt_lt; auto; [apply (q_nd _ _ _ _ _ _ _ _ (LI leb s I))|]. now apply sortk_srt. }
    rewrite E in Ss. clear E. induction p as [|a p IH]; auto. apply IH. now apply StronglySorted_inv in Ss. }
  assert (forall u, In u (e :: rest) -> W s c (fst u)) as Hw.
  { intros u Hu. apply ai_read; auto. apply (in_sortk leb). rewrite E. apply in_or_app. now right. }
  apply StronglySorted_inv in S as [S F]. rewrite Forall_forall in F. split; cbn; [split; auto; intros ? []|]. split; [|split; auto].
  - split; auto. split; [apply Hw; now left|]. intros u [<-|[]]. apply (leb_refl leb HO).
  - intros u Hu. split; [now apply F|]. apply Hw. now right.
Qed.
Lemma ai_run s x : SI s -> MI s -> run_pos (ipos x) -> AI s x -> AI s (istep leb s x) /\ run_pos (ipos (istep leb s x)).
Proof.
  intros I M R [A Q]. destruct x as [p b o]. cbn [ipos it0 out] in *.
  assert (forall q, ai_at leb s o q -> run_pos q -> AI s (Iter q b o) /\ run_pos (ipos (Iter q b o))) as Go by (intros q Hq Rq; split; auto; split; auto).
  assert (forall y, StronglySorted lt_k (sortk leb (ents (hp (tc s) y)))) as Ss.
  { intros y. apply srt_lt; auto; [apply (q_nd _ _ _ _ _ _ _ _ (LI leb s I))|]. now apply sortk_srt. }
  unfold istep, nd. destruct p as [|top n|top n Me|top n Me c|c|c r last|c last z|c last z|c last z|c last z es|e]; cbn [ipos it0 out]; try destruct R.
  - destruct Q as (Q1 & Q2 & Q3). destruct r as [|e r].
    + apply Go; cbn; auto.
    + destruct (ai_emit leb HO s o c c last e r A Q1 (proj1 Q1) Q2 Q3) as (E1 & E2). split; cbn; auto. split; auto.
  - destruct Q as (Q1 & Q2). destruct (link s z) as [z'|] eqn:E; apply Go; cbn; auto. split; auto.
    destruct Q2 as [->|Q2]; [now constructor|]. eapply nx_trans; [exact Q2|]. now constructor.
  - destruct Q as (Q1 & Q2). destruct (dl s z) eqn:D; apply Go; cbn; auto. split; auto. split; auto. intros C e He.
    destruct last as [k|]; [|exact Logic.I]. destruct (clear_inv _ _ C) as [C1 C2]. destruct Q1 as [_ [O1 _]]. now apply (order leb HO s I M c z k e).
  - destruct Q as (Q1 & Q2 & Q3). pose proof (nx_lf leb s _ _ I Q2) as Lz. apply Go; [|exact Logic.I]. cbn [ai_at]. split; auto. split; auto. split; [|split; auto].
    + intros C e He. apply in_sortk in He. auto.
    + intros e He. apply in_sortk in He. now apply ai_read.
  - destruct Q as (Q1 & Q2 & Q3 & Q4 & Q5). pose proof (nx_lf leb s _ _ I Q2) as Lz.
    assert (StronglySorted lt_k (fresh_only leb s c last es)) as Sf.
    { unfold fresh_only. destruct last; auto. destruct (clear s c); auto. now apply srt_filter_lt. }
    assert (forall u, In u (fresh_only leb s c last es) -> above leb last u) as Af.
    { intros u Hu. unfold fresh_only in Hu. destruct last as [k|]; [|exact Logic.I]. destruct (clear s c) eqn:C; [auto|].
      apply filter_In in Hu as [_ Hu]. unfold ltb in Hu. now apply negb_true_iff in Hu. }
    destruct (fresh_only leb s c last es) as [|e r] eqn:F.
    + apply Go; cbn; auto.
    + destruct (ai_emit leb HO s o z c last e r A Q1 Lz) as (E1 & E2); auto; [|split; cbn; auto; split; auto].
      intros u Hu. split; auto. apply Q4. rewrite <- F in Hu. now apply fresh_in in Hu.
  - split; [split; auto|exact Logic.I].
Qed.
(** What a step adds to what the iterator has come to. *)
Lemma emits_out s x : match emits leb s x with
  | Some e => out (istep leb s x) = out x ++ [e] /\ exists z rest, ipos (istep leb s x) = IAt z rest (Some (fst e))
  | None => out (istep leb s x) = out x end.
Proof.
  unfold emits, istep. destruct (ipos x) as [|top n|top n M|top n M c|c|c [|e rest] last|c last z|c last z|c last z|c last z es|e0] eqn:Px; cbn; eauto.
  - destruct (root (tc s)); reflexivity.
  - destruct (fst M) as [|[? ?] ?]; [destruct (ub (nd s n)); try destruct top|destruct (slot_child _ _)]; reflexivity.
  - repeat match goal with |- context [if ?e then _ else _] => destruct e end; reflexivity.
  - destruct (link s z); reflexivity.
  - destruct (dl s z); reflexivity.
  - destruct (fresh_only leb s c last es) as [|e rest]; cbn; eauto.
Qed.

(** ** A range *)
Lemma below_down (b : lbd K) k m : leb k m = true -> below leb b m = true -> below leb b k = true.
Proof.
  destruct b as [l|l|]; cbn; [|intros; eapply (t_trans leb HO); eauto|auto].
  unfold ltb. intros A B. apply negb_true_iff in B. apply negb_true_iff. destruct (leb l k) eqn:E; auto.
  rewrite (t_trans leb HO _ _ _ E A) in B. discriminate.
Qed.
Definition lrok s r : Prop :=
  (forall e, In e (ly r) -> below leb (llo r) (fst e) = false) /\ (lchk r = true -> ly r = []) /\
  match ph r with
  | PD d => ly r = [] /\ lpend r = None /\ dok s d /\ (lchk r = false -> llo r = LNone)
  | PI x => AI s x /\ run_pos (ipos x)
      /\ (exists sk tl, out x = sk ++ ly r ++ tl /\ (lpend r = None -> lend r = false -> tl = []) /\ (forall e, lpend r = Some e -> tl = [e]))
      /\ (lchk r = false -> llo r = LNone \/ exists e, In e (out x) /\ below leb (llo r) (fst e) = false)
  end.
Lemma asc_last o e u : ascending leb (map fst (o ++ [e])) -> In u (o ++ [e]) -> leb (fst u) (fst e) = true.
Proof.
  intros A Hu. apply in_app_iff in Hu as [Hu|[<-|[]]]; [|apply (leb_refl leb HO)].
  induction o as [|a o IH]; cbn in *; [destruct Hu|]. destruct A as [A1 A2]. destruct Hu as [->|Hu]; auto.
  apply (klt_leb leb HO). apply A1. rewrite map_app. apply in_or_app. right. now left.
Qed.
Lemma judge_ok s r (c : bool) e x sk : (forall e, In e (ly r) -> below leb (llo r) (fst e) = false) -> (lchk r = true -> ly r = []) ->
  AI s x -> run_pos (ipos x) -> out x = sk ++ ly r ++ [e] ->
  (lchk r = false -> llo r = LNone \/ exists e, In e (out x) /\ below leb (llo r) (fst e) = false) -> lrok s (judge leb r c e x).
Proof.
  intros Y C A R O B. unfold judge. destruct (lchk r && below leb (llo r) (fst e)) eqn:J1.
  - apply andb_true_iff in J1 as [J1 _]. split; [exact Y|]. split; [auto|]. split; [exact A|]. split; [exact R|]. split; [|discriminate].
    exists (out x), []. cbn. rewrite (C J1). split; [now rewrite app_nil_r|]. split; auto. discriminate.
  - assert (below leb (llo r) (fst e) = false) as Be.
    { destruct (lchk r) eqn:Lc; [exact J1|]. destruct (B eq_refl) as [->|(e0 & I0 & B0)]; [reflexivity|].
      destruct (below leb (llo r) (fst e)) eqn:E; auto. rewrite <- B0. symmetry. apply (below_down _ _ (fst e)); auto.
      apply (asc_last (sk ++ ly r)); rewrite <- app_assoc, <- O; auto. apply A. }
    assert (llo r = LNone \/ exists e, In e (out x) /\ below leb (llo r) (fst e) = false) as B'.
    { right. exists e. split; auto. rewrite O. apply in_or_app. right. apply in_or_app. right. now left. }
    destruct (c && beyond leb (lup r) (fst e)).
    + split; [exact Y|]. split; [discriminate|]. split; [exact A|]. split; [exact R|]. split; [|intros _; exact B'].
      exists sk, [e]. split; [exact O|]. split; discriminate.
    + split; [|split; [discriminate|]].
      * intros u Hu. cbn in Hu. apply in_app_iff in Hu as [Hu|[<-|[]]]; [exact (Y u Hu)|exact Be].
      * split; [exact A|]. split; [exact R|]. split; [|intros _; exact B'].
        exists sk, []. cbn. rewrite app_nil_r. split; [exact O|]. split; auto. discriminate.
Qed.
Lemma lnext_ok s (g : nat -> option (lr K V)) r r' : SI s -> MI s -> lnext leb (Lb s g) r = Some r' -> lrok s r -> lrok s r'.
Proof.
  intros I M H (Y & C & Q). unfold lnext in H. cbn [bl] in H. destruct (lend r) eqn:Le; [discriminate|]. destruct (ph r) as [d|x].
  - destruct Q as (Q1 & Q2 & Q3 & Q4). pose proof (dstep_ok (llo r) s d I Q3) as G. destruct (dstep leb (llo r) s d) as [d'|c e rest|]; injection H as <-.
    + split; [exact Y|]. split; [exact C|]. cbn. auto.
    + destruct G as [G1 G2]. split; [exact Y|]. split; [exact C|]. cbn [ph].
      split; [now apply ai_start|]. split; [exact Logic.I|]. split.
      * exists [], [e]. cbn. rewrite Q1. split; auto. split; [discriminate|]. intros e0 [= <-]. auto.
      * intros Lc. left. exact (Q4 Lc).
    + split; [exact Y|]. split; [exact C|]. cbn. auto.
  - destruct Q as (A & R & (sk & tl & O & T1 & T2) & B). destruct (lpend r) as [e|] eqn:Pe.
    + destruct (ipos x) eqn:Px; try discriminate. injection H as <-. rewrite (T2 e eq_refl) in O. eapply judge_ok; eauto. now rewrite Px.
    + rewrite (T1 eq_refl eq_refl), app_nil_r in O. destruct (ai_run s x I M R A) as [A' R']. pose proof (emits_out s x) as E.
      destruct (emits leb s x) as [e|].
      * destruct E as [E (z & rest & P)].
        assert (lchk r = false -> llo r = LNone \/ exists e, In e (out (istep leb s x)) /\ below leb (llo r) (fst e) = false) as B'.
        { intros Lc. destruct (B Lc) as [|(e0 & I0 & B0)]; auto. right. exists e0. split; auto. rewrite E. apply in_or_app. now left. }
        destruct (same_leaf x); injection H as <-.
        -- apply (judge_ok s r _ e (istep leb s x) sk); auto. now rewrite E, O, <- app_assoc.
        -- split; [exact Y|]. split; [exact C|]. split; [exact A'|]. split; [exact R'|]. split; [|exact B'].
           exists sk, [e]. cbn. split; [now rewrite E, O, <- app_assoc|]. split; [discriminate|]. intros e0 [= <-]. auto.
      * injection H as <-. split; [exact Y|]. split; [exact C|]. split; [exact A'|]. split; [exact R'|]. split.
        -- exists sk, []. cbn. rewrite app_nil_r, E. split; auto. split; auto. discriminate.
        -- cbn. rewrite E. exact B.
Qed.
Lemma lrok_keep s s' r : SI s -> SI s' -> MI s' -> Pk leb s s' -> (forall n c, kidof s n c -> kidof s' n c) -> lrok s r -> lrok s' r.
Proof.
  intros I I' M' P Pd (Y & C & Q). split; auto. split; auto. destruct (ph r) as [d|x].
  - destruct Q as (Q1 & Q2 & Q3 & Q4). split; auto. split; auto. split; auto. destruct d; cbn in *; auto; now apply (k_leaf _ _ _ P).
  - destruct Q as (Q1 & Q2). split; auto. now apply (ai_keep leb HO s).
Qed.
Lemma kid_t a s s' n c : SI s -> tstep leb a s = Some s' -> kidof s n c -> kidof s' n c.
Proof.
  intros I H (A & B & L). destruct (tsg leb a s s' H) as (E & _). pose proof (ts_t leb HO a s s' I E) as T. pose proof (ts_x _ _ _ T) as X.
  pose proof (x_f _ _ _ _ _ _ _ X). split; [lia|]. split; [lia|]. now rewrite !(x_lvl _ _ _ _ _ _ _ X) by auto.
Qed.

(** ** Runs *)
Definition BR (s : lbs K V) : Prop := SI (bl s) /\ MI (bl s) /\ forall i r, lrs s i = Some r -> lrok (bl s) r.
Lemma br_step (a : lbact K V) (s s' : lbs K V) : BR s -> lbstep leb a s = Some s' -> (forall n, a <> BL (LL (LUnm n))) -> BR s'.
Proof.
  intros (I & M & A) St Nu. destruct a as [a|i l u|i]; cbn [lbstep] in St.
  - destruct (lsstep leb a (bl s)) as [s1|] eqn:E; [|discriminate]. injection St as <-. pose proof (si_step leb HO _ _ _ I E) as I'.
    split; [exact I'|]. cbn [bl lrs]. destruct a as [a|a|[i|i]]; cbn [lsstep] in E.
    + pose proof (mi_t leb HO a _ _ I M E) as M'. split; auto. intros i r Hr. apply (lrok_keep (bl s)); auto; [now apply (pk_t leb HO a)| |eauto].
      intros n c. now apply (kid_t a).
    + assert (forall n, a <> LUnm n) as Nu' by (intros n ->; now apply (Nu n)).
      destruct (mi_l leb HO a _ _ I M E Nu') as (M' & Et & _). split; auto. intros i r Hr. apply (lrok_keep (bl s)); auto; [now apply (pk_l leb HO a)| |eauto].
      unfold kidof. now rewrite Et.
    + destruct (its (bl s) i); [discriminate|]. injection E as <-. split; [constructor; apply M|]. exact A.
    + destruct (its (bl s) i); [|discriminate]. injection E as <-. split; [constructor; apply M|]. exact A.
  - destruct (lrs s i) eqn:Ei; [discriminate|]. injection St as <-. split; [exact I|]. split; [exact M|]. cbn [bl lrs].
    intros j r Hr. unfold upd in Hr. destruct (Nat.eqb_spec j i) as [->|N]; [|exact (A j r Hr)]. injection Hr as <-.
    split; [intros ? []|]. split; [reflexivity|]. cbn. split; auto. split; auto. split; auto. destruct l; auto; discriminate.
  - destruct (lrs s i) as [r0|] eqn:Ei; [|discriminate]. destruct (lnext leb s r0) as [r1|] eqn:En; [|discriminate]. injection St as <-.
    split; [exact I|]. split; [exact M|]. cbn [bl lrs]. intros j r Hr. unfold upd in Hr. destruct (Nat.eqb_spec j i) as [->|N]; [|exact (A j r Hr)].
    injection Hr as <-. destruct s as [s g]. eapply lnext_ok; eauto.
Qed.
Lemma br_run l : forall s s' : lbs K V, BR s -> lbrun leb l s = Some s' -> no_rollback_b l -> BR s'.
Proof.
  induction l as [|a l IH]; cbn; intros s s' R H Nu; [now injection H as <-|]. destruct (lbstep leb a s) as [s1|] eqn:E; [|discriminate].
  apply (IH s1); auto; [|intros n Hn; apply (Nu n); now right]. apply (br_step a s); auto. intros n ->. apply (Nu n). now left.
Qed.
Lemma br_init : BR lbinit.
Proof. split; [apply (si_init leb)|]. split; [apply mi_init|]. cbn. discriminate. Qed.
Lemma asc_mid (a d f : list K) : ascending leb (a ++ d ++ f) -> ascending leb d.
Proof.
  intros A. assert (ascending leb (d ++ f)) as B by (induction a as [|u a IH]; auto; apply IH; apply A). clear A.
  induction d as [|u d IH]; cbn; auto. destruct B as [A B]. split; auto. intros w Hw. apply A. apply in_or_app. now left.
Qed.
Lemma span_low l (s : lbs K V) i b u y : lbrun leb l lbinit = Some s -> no_rollback_b l -> spanned s i b u y ->
  (forall k v, In (k, v) y -> below leb b k = false) /\ ascending leb (map fst y).
Proof.
  intros H Nu (r & Hr & <- & _ & <-). destruct (br_run l _ _ br_init H Nu) as (_ & _ & A). destruct (A i r Hr) as (Y & _ & Q).
  split; [intros k v Hk; exact (Y _ Hk)|]. destruct (ph r) as [d|x].
  - destruct Q as [-> _]. exact Logic.I.
  - destruct Q as ([Ax _] & _ & (sk & tl & O & _) & _). rewrite O, !map_app in Ax. now apply asc_mid in Ax.
Qed.
End facts.
