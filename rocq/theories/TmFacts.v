(** Iterators that look for the first leaf as the code does: the invariant of every run. *)
From Coq Require Import List Arith Bool Lia Sorted.
From Verif Require Import TcModel TcRoute TcSpec TcInv TcTree TcFrame TcFz TcExt TcSys TcKeep TcOps TcRun TiModel TiInv TiConv TiList TiMove TiBlk TiStep TiSys TiExt TiTs TiCur TiSeek TiLoop TmModel.
Import ListNotations.

Section facts.
Context {K V : Type} (leb : K -> K -> bool) (HO : tord leb).
Notation SI := (SI leb).
Notation Gm := (Gm leb).
Notation It := (It leb).
Notation Ps := (Ps leb).
Implicit Types (s : ls K V) (x : mit K V) (c n b : nat).

Definition D0 : K * V -> Prop := fun e => In e [].
Definition nrm s b (f : list (@wait K)) n : Prop :=
  lvl (hp (tc s) n) <> 0 /\ Gm s b D0 n /\ (f = [] -> forall k, Good leb (hp (tc s)) (root (tc s)) (log (tc s)) b k n).
Definition at_m s b (p : @mpos K V) : Prop :=
  let h := hp (tc s) in
  match p with
  | MStart => True
  | MNode f n => nrm s b f n
  | MMeta f n M r => nrm s b f n /\ r = fst M /\ (M = meta_of (h n) \/ ver M < ver (meta_of (h n)))
  | MLoad f n M r u c => nrm s b f n /\ ((M = meta_of (h n) /\ lvl (h n) = S (lvl (h c)) /\ Gm s b D0 c
        /\ (u = true -> f = [] -> forall k, Good leb h (root (tc s)) (log (tc s)) b k c)) \/ ver M < ver (meta_of (h n)))
  | MGo y => it0 y = b /\ It s y
  end.
Definition Mi s x : Prop := m0 x <= length (log (tc s)) /\ (on x = false -> at_m s (m0 x) (mp x)).

Lemma mi_keep s s' x : Ps s s' (m0 x) -> Mi s x -> Mi s' x.
Proof.
  intros P [B Q]. destruct (p_log _ _ _ _ P) as [l El]. split; [rewrite El, app_length; lia|]. intros On. specialize (Q On).
  destruct x as [p b o]. cbn in *. clear o On.
  assert (forall f n, nrm s b f n -> nrm s' b f n) as Pn.
  { intros f n (N1 & N2 & N3). split; [rewrite (p_lvl _ _ _ _ P); auto; apply N2|]. split; [now apply (p_gm _ _ _ _ P)|].
    intros T k. apply (p_good _ _ _ _ P). auto. }
  assert (forall f n (M : meta), nrm s b f n -> M = meta_of (hp (tc s) n) \/ ver M < ver (meta_of (hp (tc s) n)) ->
    (M = meta_of (hp (tc s) n) /\ M = meta_of (hp (tc s') n)) \/ ver M < ver (meta_of (hp (tc s') n))) as Pm.
  { intros f n M (_ & [Hn _] & _) [E|E]; destruct (p_meta _ _ _ _ P n Hn) as [E'|E'].
    - left. split; congruence. - right. congruence. - right. congruence. - right. lia. }
  destruct p as [|f n|f n M r|f n M r u c|y]; cbn [at_m] in *; auto.
  - destruct Q as (Q1 & Q2 & Q3). split; auto. split; auto. destruct (Pm _ _ _ Q1 Q3) as [[_ E]|E]; auto.
  - destruct Q as [Q1 Q2]. split; auto. destruct Q2 as [(E & Lv & G & Gd)|E].
    + destruct (Pm _ _ _ Q1 (or_introl E)) as [[_ E']|E']; auto. left. split; auto.
      split; [rewrite !(p_lvl _ _ _ _ P); auto; [apply G|apply Q1]|]. split; [now apply (p_gm _ _ _ _ P)|].
      intros U F k. apply (p_good _ _ _ _ P). auto.
    + destruct (Pm _ _ _ Q1 (or_intror E)) as [[E' _]|E']; auto. rewrite E' in E. lia.
  - destruct Q as [Q1 Q2]. split; auto. subst b. now apply (it_keep leb s s').
Qed.
Lemma mi_step s x : SI s -> Mi s x -> Mi s (mstep leb s x).
Proof.
  intros I [B Q]. destruct x as [p b o]. cbn in B, Q. pose proof (HIs leb s I) as HI.
  assert (forall q, (o = false -> at_m s b q) -> Mi s (Mit q b o)) as Go by (intros q Hq; now split).
  assert ((forall e, ~ Stb leb s b e) -> at_m s b (MGo (Iter (IEnd (length (log (tc s)))) b []))) as End_.
  { intros A. split; auto. constructor; cbn; [lia|intros ? []|]. split; [lia|]. split; [|intros ? []].
    intros k v S. destruct (A (k, v)). now apply stb_of. }
  unfold mstep, nd. destruct p as [|f n|f n M r|f n M r u c|y]; cbn [mp m0 on].
  - clear HI. destruct (root (tc s)) as [n|] eqn:R; pose proof (HIs leb s I) as HI; apply Go; intros _.
    + split; [apply (h_root _ _ _ _ _ HI n R)|]. split; [now apply gm_root|]. intros _ k. now apply good_root.
    + apply End_. intros e S. pose proof (stb_now leb s b e B S) as A.
      destruct (h_abs2 _ _ _ _ _ HI (fst e)) as (z & Oz & _); [congruence|]. destruct (on_root_ex leb _ _ _ _ Oz). congruence.
  - apply Go. intros On. split; [apply (Q On)|]. split; [reflexivity|]. now left.
  - assert (forall r' u c, o = false -> (M = meta_of (hp (tc s) n) -> First (hp (tc s) n) = Some c) -> (u = true -> M = meta_of (hp (tc s) n) -> cells (hp (tc s) n) = []) ->
      at_m s b (MLoad f n M r' u c)) as Ld.
    { intros r' u c On F U. destruct (Q On) as (Nr & _ & Mx). pose proof Nr as (Ln & [Hn Gn] & Gd). cbn. split; auto.
      destruct Mx as [E|E]; auto. left. split; auto. specialize (F E).
      assert (In c (kids (hp (tc s) n))) as Hc.
      { clear -F. unfold First in F. unfold kids. destruct (cells (hp (tc s) n)) as [|a l]; cbn in *.
        - destruct (ub (hp (tc s) n)); try discriminate. injection F as <-. cbn. auto.
        - injection F as <-. auto. }
      split; [now destruct (kid_lvl leb _ _ _ _ HI n c Hn Hc)|]. split; [apply (gm_next leb HO s I b _ n); auto; apply Nr|].
      intros Hu Hf k. apply (good_nxt leb _ _ _ _ HI (i_f _ _ (proj1 I)) b k n c); auto. unfold nxt, nx. rewrite pos_rts, (U Hu E). cbn.
      unfold First in F. now rewrite (U Hu E) in F. }
    destruct r as [|[k1 j1] r].
    + destruct (ub (hp (tc s) n)) as [| |c] eqn:Ub.
      1,2: destruct f as [|[[n' M'] r'] f']; [apply Go; intros On|split; [exact B|discriminate]]; apply End_; intros e S;
        destruct (Q On) as (Nr & _ & _); pose proof Nr as (Ln & [Hn Gn] & Gd); pose proof (h_wf _ _ _ _ _ HI n Hn) as W;
        apply (seen_stb leb s b e S); apply (good_none leb _ _ _ _ HI b (fst e) n); auto; unfold nxt, nx;
        rewrite pos_rts, (w_ub _ _ _ _ W) by (rewrite Ub; discriminate); cbn; now rewrite Ub.
      apply Go. intros On. destruct (Q On) as (_ & Er & _).
      assert (M = meta_of (hp (tc s) n) -> cells (hp (tc s) n) = []) as Ce.
      { intros E. rewrite E in Er. unfold meta_of in Er. cbn in Er. destruct (cells (hp (tc s) n)); auto. discriminate. }
      apply Ld; auto. intros E. unfold First. now rewrite (Ce E), Ub.
    + destruct (slot_child (cells (hp (tc s) n)) j1) as [c|] eqn:Sc; apply Go; intros On; [|apply (Q On)].
      destruct (Q On) as (_ & Er & _). apply Ld; auto; [|discriminate]. intros E. unfold First. rewrite E in Er. unfold meta_of in Er. cbn in Er.
      destruct (cells (hp (tc s) n)) as [|a l]; [discriminate|]. cbn in Er, Sc. injection Er as _ -> _. rewrite Nat.eqb_refl in Sc. exact Sc.
  - destruct (meta_eqb leb M (meta_of (hp (tc s) n))) eqn:Em; [|apply Go; intros On; apply (Q On)].
    apply (meta_eqb_eq leb HO) in Em. destruct (Nat.eqb_spec (lvl (hp (tc s) n)) 1) as [L1|L1]; apply Go; intros On;
      destruct (Q On) as [Nr Mx]; (destruct Mx as [(_ & Lc & Gc & Gd)|Mx]; [|rewrite Em in Mx; lia]).
    + cbn. split; auto. constructor; cbn; [auto|intros ? []|]. apply (gm_leaf leb HO s I); auto. lia.
    + cbn. destruct Nr as (Ln & _). split; [lia|]. split; auto. destruct u; [auto|discriminate].
  - apply Go. intros On. destruct (Q On) as [E Iy]. cbn. split; [|now apply it_step]. rewrite <- E. unfold istep.
    repeat match goal with |- context [match ?e with _ => _ end] => destruct e end; auto.
Qed.

Definition MR (s : tms K V) : Prop := SI (ml s) /\ forall i x, mis s i = Some x -> Mi (strip (ml s)) x.
Lemma mr_step a (s s' : tms K V) : MR s -> msys leb a s = Some s' -> MR s'.
Proof.
  intros [I A] St. destruct a as [a|i|i]; cbn [msys] in St.
  - destruct (lsstep leb a (ml s)) as [t|] eqn:E; [|discriminate]. injection St as <-. pose proof (si_step leb HO a _ _ I E) as I'. split; [exact I'|]. cbn.
    intros i x Hx. specialize (A i x Hx). destruct a as [a|a|[j|j]]; cbn [lsstep] in E.
    + destruct (t_parts leb _ _ _ E) as (E1 & E2 & E3 & E4). apply (mi_keep (strip (ml s))); auto. apply (ps_t leb HO); auto. apply (ts_step leb HO a); auto; [apply I|].
      intros y. apply (q_nd _ _ _ _ _ _ _ _ (LI leb (ml s) I)). apply (proj1 A).
    + destruct (l_its _ _ _ E) as (E1 & E2). apply (mi_keep (strip (ml s))); auto. now apply (ps_l leb a).
    + destruct (its (ml s) j); [discriminate|]. injection E as <-. exact A.
    + destruct (its (ml s) j); [|discriminate]. injection E as <-. exact A.
  - destruct (mis s i) eqn:Ei; [discriminate|]. injection St as <-. split; [exact I|]. intros i' x Hx. cbn in Hx. unfold upd in Hx.
    destruct (Nat.eqb_spec i' i) as [->|N]; [|exact (A i' x Hx)]. injection Hx as <-. split; cbn; auto.
  - destruct (mis s i) as [x0|] eqn:Ei; [|discriminate]. injection St as <-. split; [exact I|]. intros i' x Hx. cbn in Hx. unfold upd in Hx.
    destruct (Nat.eqb_spec i' i) as [->|N]; [|exact (A i' x Hx)]. injection Hx as <-. exact (mi_step (strip (ml s)) x0 I (A i x0 Ei)).
Qed.
Lemma mr_run l : forall s s' : tms K V, MR s -> mrun leb l s = Some s' -> MR s'.
Proof.
  induction l as [|a l IH]; cbn; intros s s' R H; [now injection H as <-|]. destruct (msys leb a s) as [s1|] eqn:E; [|discriminate].
  apply (IH s1); auto. now apply (mr_step a s).
Qed.
Lemma mr_init : MR minit.
Proof. split; [apply (si_init leb)|]. cbn. discriminate. Qed.
End facts.
