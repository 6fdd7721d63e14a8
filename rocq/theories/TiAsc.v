(** In runs in which no rolled-back split removes its mark: what an iterator has yielded is ascending. *)
From Coq Require Import List Arith Bool Lia Sorted.
From Verif Require Import TcModel TcRoute TcSpec TcInv TcTree TcFrame TcFz TcExt TcSys TcKeep TcOps TcRun TiModel TiSpec TiInv TiConv TiList TiMove TiBlk TiStep TiSys TiExt TiTs TiCur TiSeek TiLoop TiJob TiWay TiMark TiOrd.
Import ListNotations.

Section asc.
Context {K V : Type} (leb : K -> K -> bool) (HO : tord leb).
Notation klt := (klt leb).
Notation SI := (SI leb).
Notation MI := (MI leb).
Notation W := (W leb).
Notation le_k := (fun a d : K * V => leb (fst a) (fst d) = true).
Implicit Types (s : ls K V) (x : iter K V) (e j : K * V) (k : K) (c y z b n : nat) (o P : list (K * V)) (last : option K).

Definition lt_k (a d : K * V) : Prop := klt (fst a) (fst d).
Definition above last e : Prop := match last with Some k => klt k (fst e) | None => True end.
Definition leaf s y : Prop := y < fresh (tc s) /\ lvl (hp (tc s) y) = 0.
Definition Okl s y last o : Prop := leaf s y /\ match last with None => o = [] | Some k => W s y k /\ forall e, In e o -> leb (fst e) k = true end.
Definition ai_at s o (p : @ipc K V) : Prop :=
  match p with
  | IFirst c => o = [] /\ leaf s c
  | IAt y r last => Okl s y last o /\ (forall e, In e r -> above last e /\ W s y (fst e)) /\ StronglySorted lt_k r
  | ILink y last z => Okl s y last o /\ (z = y \/ Nx (link s) y z)
  | IHop y last z => Okl s y last o /\ Nx (link s) y z
  | INext y last z => Okl s y last o /\ Nx (link s) y z /\ (clear s y = true -> forall e, In e (ents (hp (tc s) z)) -> above last e)
  | ISnap y last z es => Okl s y last o /\ Nx (link s) y z /\ (clear s y = true -> forall e, In e es -> above last e)
      /\ (forall e, In e es -> W s z (fst e)) /\ StronglySorted lt_k es
  | IEnd _ => True
  | _ => o = []
  end.
Definition AI s x : Prop := ascending leb (map fst (out x)) /\ ai_at s (out x) (ipos x).

(** ** Steps of others *)
Record Pk s s' : Prop := {
  k_leaf : forall y, leaf s y -> leaf s' y;
  k_w : forall y k, leaf s y -> W s y k -> W s' y k;
  k_nx : forall y z, Nx (link s) y z -> Nx (link s') y z;
  k_cl : forall y, clear s' y = true -> clear s y = true;
  k_e : forall z, leaf s z -> dl s' z = true -> ents (hp (tc s') z) = ents (hp (tc s) z) }.
Lemma clear_inv s y : clear s y = true -> mk s y = false /\ dl s y = false.
Proof. unfold clear. destruct (mk s y), (dl s y); cbn; intros; auto; discriminate. Qed.
Lemma nx_lf s y z : SI s -> Nx (link s) y z -> leaf s z.
Proof. intros I N. destruct (nx_leaf leb s I _ _ N) as (_ & ? & _ & ?). split; auto. Qed.
Lemma ai_keep s s' x : SI s -> SI s' -> MI s' -> Pk s s' -> AI s x -> AI s' x.
Proof.
  intros I I' M' P [A Q]. split; auto.
  assert (forall y last, Okl s y last (out x) -> Okl s' y last (out x)) as Po.
  { intros y last [L O]. split; [now apply (k_leaf _ _ P)|]. destruct last; auto. destruct O as [O1 O2]. split; auto. now apply (k_w _ _ P). }
  destruct (ipos x) as [|top n|top n Me|top n Me c|c|c r last|c last z|c last z|c last z|c last z es|e]; cbn [ai_at] in *; auto.
  - destruct Q. split; auto. now apply (k_leaf _ _ P).
  - destruct Q as (Q1 & Q2 & Q3). split; auto. split; auto. intros e He. destruct (Q2 e He). split; auto. apply (k_w _ _ P); auto. apply Q1.
  - destruct Q as (Q1 & Q2). split; auto. destruct Q2; auto. right. now apply (k_nx _ _ P).
  - destruct Q as (Q1 & Q2). split; auto. now apply (k_nx _ _ P).
  - destruct Q as (Q1 & Q2 & Q3). split; auto. split; [now apply (k_nx _ _ P)|]. intros C e He.
    destruct (dl s' z) eqn:D.
    + apply Q3; [now apply (k_cl _ _ P)|]. rewrite (k_e _ _ P) in He; auto. eapply nx_lf; eauto.
    + destruct last as [k|]; [|exact Logic.I]. destruct (clear_inv _ _ C) as [C1 C2]. cbn.
      destruct (Po _ _ Q1) as [_ [O1 _]]. apply (order leb HO s' I' M' c z k e); auto. now apply (k_nx _ _ P).
  - destruct Q as (Q1 & Q2 & Q3 & Q4 & Q5). split; auto. split; [now apply (k_nx _ _ P)|]. split; [intros C; apply Q3; now apply (k_cl _ _ P)|].
    split; auto. intros e He. apply (k_w _ _ P); auto. eapply nx_lf; eauto.
Qed.
Lemma pk_t a s s' : SI s -> MI s -> tstep leb a s = Some s' -> Pk s s'.
Proof.
  intros I M H. destruct (tsg leb a s s' H) as (E & El & Ed & Em & _). pose proof (ts_t leb HO a s s' I E) as T. pose proof (ts_x _ _ _ T) as X.
  constructor.
  - intros y [F L]. split; [|now rewrite (x_lvl _ _ _ _ _ _ _ X)]. pose proof (x_f _ _ _ _ _ _ _ X). lia.
  - intros y k [F L]. now apply (w_t leb HO a).
  - now rewrite El.
  - intros y. unfold clear. now rewrite Ed, Em.
  - intros z [F L] D. rewrite Ed in D. apply (ts_z _ _ _ T); auto. apply (q_dfz _ _ _ _ _ _ _ _ (LI leb s I)); auto.
Qed.
Lemma pk_l a s s' : SI s -> MI s -> lstep a s = Some s' -> (forall n, a <> LUnm n) -> Pk s s'.
Proof.
  intros I M H Nu. destruct (mi_l leb HO a s s' I M H Nu) as (M' & Et & _ & Dm & Mm). constructor.
  - unfold leaf. now rewrite Et.
  - intros y k _. now apply w_l.
  - intros y z. now apply (nx_l leb a).
  - intros y C. destruct (clear_inv _ _ C) as [C1 C2]. unfold clear. destruct (dl s y) eqn:D; [rewrite (Dm _ D) in C2; discriminate|].
    destruct (mk s y) eqn:Mk; [rewrite (Mm _ Mk) in C1; discriminate|]. reflexivity.
  - intros. now rewrite Et.
Qed.

(** ** Steps of its own *)
Lemma asc_app o e : ascending leb (map fst o) -> (forall u, In u o -> klt (fst u) (fst e)) -> ascending leb (map fst (o ++ [e])).
Proof.
  induction o as [|a r IH]; cbn; intros A H; [split; [intros ? []|exact Logic.I]|]. destruct A as [A1 A2]. split; [|apply IH; auto].
  intros b Hb. rewrite map_app in Hb. apply in_app_iff in Hb as [Hb|[<-|[]]]; auto. apply (H a). now left.
Qed.
Lemma srt_lt l : NoDup (map fst l) -> StronglySorted le_k (sortk leb l) -> StronglySorted lt_k (sortk leb l).
Proof.
  intros N S. assert (NoDup (map fst (sortk leb l))) as N'.
  { clear S. induction l as [|a l IH]; cbn in *; [constructor|]. apply NoDup_cons_iff in N as [N1 N2]. specialize (IH N2).
    assert (~ In (fst a) (map fst (sortk leb l))) as N3.
    { intros H. apply N1. apply in_map_iff in H as (u & E & Hu). apply in_map_iff. exists u. split; auto. now apply in_sortk in Hu. }
    clear - IH N3. induction (sortk leb l) as [|d r IH2]; cbn in *; [repeat constructor; auto|].
    destruct (leb (fst a) (fst d)); cbn; [constructor; auto; cbn; tauto|]. apply NoDup_cons_iff in IH as [I1 I2].
    constructor; [|apply IH2; tauto]. intros H. apply in_map_iff in H as (u & E & Hu). apply in_insk in Hu as [->|Hu]; [apply N3; left; congruence|].
    apply I1. rewrite <- E. now apply in_map. }
  clear N. induction S as [|d r S IH F]; [constructor|]. cbn in N'. apply NoDup_cons_iff in N' as [N1 N2]. constructor; auto.
  rewrite Forall_forall in *. intros u Hu. unfold lt_k, TiInv.klt. destruct (leb (fst u) (fst d)) eqn:E; auto. exfalso. apply N1.
  rewrite (t_anti leb HO (fst d) (fst u)); auto. now apply in_map.
Qed.
Lemma srt_filter_lt (f : K * V -> bool) l : StronglySorted lt_k l -> StronglySorted lt_k (filter f l).
Proof.
  induction 1 as [|d r S IH F]; cbn; [constructor|]. destruct (f d); auto. constructor; auto.
  rewrite Forall_forall in *. intros u Hu. apply filter_In in Hu as [Hu _]. auto.
Qed.
Lemma klt_le (a b c : K) : leb a b = true -> klt b c -> klt a c.
Proof. unfold TiInv.klt. intros A B. destruct (leb c a) eqn:E; auto. rewrite (t_trans leb HO _ _ _ E A) in B. exact B. Qed.
(** The next entry of the leaf [y] is yielded. *)
Lemma ai_emit s o y y0 last e r : ascending leb (map fst o) -> Okl s y0 last o -> leaf s y -> (forall u, In u (e :: r) -> above last u /\ W s y (fst u)) ->
  StronglySorted lt_k (e :: r) ->
  ascending leb (map fst (o ++ [e])) /\ Okl s y (Some (fst e)) (o ++ [e]) /\ (forall u, In u r -> above (Some (fst e)) u /\ W s y (fst u)) /\ StronglySorted lt_k r.
Proof.
  intros A [_ O] Ly Q S. apply StronglySorted_inv in S as [S F]. rewrite Forall_forall in F.
  assert (forall u, In u o -> klt (fst u) (fst e)) as B.
  { intros u Hu. destruct (Q e (or_introl eq_refl)) as [Ab _]. destruct last as [k|]; [|subst; destruct Hu].
    destruct O as [_ O]. apply (klt_le _ k); auto. }
  split; [now apply asc_app|]. split.
  - split; auto. split; [apply Q; now left|]. intros u Hu. apply in_app_iff in Hu as [Hu|[<-|[]]]; [|apply (leb_refl leb HO)].
    apply (klt_leb leb HO). auto.
  - split; auto. intros u Hu. split; [now apply F|]. apply Q. now right.
Qed.
Lemma ai_read s y e : SI s -> MI s -> leaf s y -> In e (ents (hp (tc s) y)) -> W s y (fst e).
Proof.
  intros I M [F L] He. destruct (dl s y) eqn:D; [right; now left|]. now apply (read leb HO s I M).
Qed.
Lemma ai_step s x : SI s -> MI s -> It leb (strip s) x -> AI s x -> AI s (istep leb s x).
Proof.
  intros I M [B Oi R] [A Q]. destruct x as [p b o]. cbn [ipos it0 out] in *.
  assert (forall q, ai_at s o q -> AI s (Iter q b o)) as Go by (intros q Hq; split; auto).
  assert (forall y, StronglySorted lt_k (sortk leb (ents (hp (tc s) y)))) as Ss.
  { intros y. apply srt_lt; [apply (q_nd _ _ _ _ _ _ _ _ (LI leb s I))|]. now apply sortk_srt. }
  unfold istep, nd. destruct p as [|top n|top n Me|top n Me c|c|c r last|c last z|c last z|c last z|c last z es|e]; cbn [ipos it0 out].
  - destruct (root (tc s)); apply Go; cbn; auto.
  - apply Go. auto.
  - destruct (fst Me) as [|[? ?] ?]; [destruct (ub (hp (tc s) n)); try destruct top|destruct (slot_child _ _)]; apply Go; cbn; auto.
  - cbn [at_it tc strip] in R. cbn [ai_at] in Q. destruct (meta_eqb leb Me (meta_of (hp (tc s) n))) eqn:Em; [|apply Go; exact Q].
    apply (meta_eqb_eq leb HO) in Em. destruct (Nat.eqb_spec (lvl (hp (tc s) n)) 1) as [L1|L1]; [|apply Go; exact Q].
    destruct R as [_ [(_ & Gc & Lc)|Mx]]; [|rewrite Em in Mx; lia].
    apply Go. cbn. split; auto. split; [apply Gc|lia].
  - destruct Q as [-> Lc]. apply Go. cbn [ai_at]. split; [split; auto|]. split; auto. intros e He. apply in_sortk in He. split; [exact Logic.I|]. now apply ai_read.
  - destruct Q as (Q1 & Q2 & Q3). destruct r as [|e r].
    + apply Go. cbn. auto.
    + destruct (ai_emit s o c c last e r A Q1 (proj1 Q1) Q2 Q3) as (E1 & E2). split; auto.
  - destruct Q as (Q1 & Q2). destruct (link s z) as [z'|] eqn:E; apply Go; cbn; auto. split; auto.
    destruct Q2 as [->|Q2]; [now constructor|]. eapply nx_trans; [exact Q2|]. now constructor.
  - destruct Q as (Q1 & Q2). destruct (dl s z) eqn:D; apply Go; cbn; split; auto. split; auto. intros C e He.
    destruct last as [k|]; [|exact Logic.I]. destruct (clear_inv _ _ C) as [C1 C2]. destruct Q1 as [_ [O1 _]]. now apply (order leb HO s I M c z k e).
  - destruct Q as (Q1 & Q2 & Q3). pose proof (nx_lf s _ _ I Q2) as Lz. apply Go. cbn [ai_at]. split; auto. split; auto. split; [|split; auto].
    + intros C e He. apply in_sortk in He. auto.
    + intros e He. apply in_sortk in He. now apply ai_read.
  - destruct Q as (Q1 & Q2 & Q3 & Q4 & Q5). pose proof (nx_lf s _ _ I Q2) as Lz.
    assert (StronglySorted lt_k (fresh_only leb s c last es)) as Sf.
    { unfold fresh_only. destruct last; auto. destruct (clear s c); auto. now apply srt_filter_lt. }
    assert (forall u, In u (fresh_only leb s c last es) -> above last u) as Af.
    { intros u Hu. unfold fresh_only in Hu. destruct last as [k|]; [|exact Logic.I]. destruct (clear s c) eqn:C; [auto|].
      apply filter_In in Hu as [_ Hu]. unfold ltb in Hu. now apply negb_true_iff in Hu. }
    destruct (fresh_only leb s c last es) as [|e r] eqn:F.
    + apply Go. cbn. auto.
    + destruct (ai_emit s o z c last e r A Q1 Lz) as (E1 & E2); auto; [|split; auto].
      intros u Hu. split; auto. apply Q4. rewrite <- F in Hu. now apply fresh_in in Hu.
  - split; auto.
Qed.

(** ** Runs *)
Definition AR s : Prop := RI leb s /\ MI s /\ forall i x, its s i = Some x -> AI s x.
Lemma ar_step a s s' : AR s -> lsstep leb a s = Some s' -> (forall n, a <> LL (LUnm n)) -> AR s'.
Proof.
  intros (R & M & A) St Nu. pose proof (ri_step leb HO a s s' R St) as R'. pose proof (proj1 R) as I. pose proof (proj1 R') as I'.
  split; auto. destruct a as [a|a|[i|i]]; cbn [lsstep] in St.
  - pose proof (mi_t leb HO a s s' I M St) as M'. split; auto. destruct (t_parts leb _ _ _ St) as (_ & _ & _ & E4).
    intros i x Hx. rewrite E4 in Hx. apply (ai_keep s); auto; [|eauto]. now apply (pk_t a).
  - assert (forall n, a <> LUnm n) as Nu' by (intros n ->; now apply (Nu n)).
    destruct (mi_l leb HO a s s' I M St Nu') as (M' & _ & E4 & _). split; auto.
    intros i x Hx. rewrite E4 in Hx. apply (ai_keep s); auto; [|eauto]. now apply (pk_l a).
  - destruct (its s i) eqn:Ei; [discriminate|]. injection St as <-. split; [constructor; apply M|].
    intros i' x Hx. cbn in Hx. unfold upd in Hx. destruct (Nat.eqb_spec i' i) as [->|N]; [|exact (A i' x Hx)].
    injection Hx as <-. split; cbn; auto.
  - destruct (its s i) as [x0|] eqn:Ei; [|discriminate]. injection St as <-. split; [constructor; apply M|].
    intros i' x Hx. cbn in Hx. unfold upd in Hx. destruct (Nat.eqb_spec i' i) as [->|N]; [|exact (A i' x Hx)].
    injection Hx as <-. exact (ai_step s x0 I M (proj2 R i x0 Ei) (A i x0 Ei)).
Qed.
Lemma ar_run l : forall s s', AR s -> lsrun leb l s = Some s' -> (forall n, ~ In (LL (LUnm n)) l) -> AR s'.
Proof.
  induction l as [|a l IH]; cbn; intros s s' R H Nu; [now injection H as <-|]. destruct (lsstep leb a s) as [s1|] eqn:E; [|discriminate].
  apply (IH s1); auto; [|intros n Hn; apply (Nu n); auto]. apply (ar_step a s); auto. intros n ->. apply (Nu n). auto.
Qed.
Lemma ar_init : AR linit.
Proof. split; [apply ri_init|]. split; [apply mi_init|]. cbn. discriminate. Qed.
Lemma run_ascending l s i b (y : list (K * V)) : lsrun leb l linit = Some s -> (forall n, ~ In (LL (LUnm n)) l) -> iterated s i b y -> ascending leb (map fst y).
Proof. intros H Nu (x & Hx & _ & <-). destruct (ar_run l _ _ ar_init H Nu) as (_ & _ & A). apply (A i x Hx). Qed.
End asc.
