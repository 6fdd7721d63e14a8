(** What an iterator over the leaves has yielded: the invariant of every run. *)
From Coq Require Import List Arith Bool Lia Sorted.
From Verif Require Import TcModel TcRoute TcSpec TcInv TcTree TcFrame TcFz TcExt TcSys TcKeep TcOps TcRun TiModel TiInv TiConv TiList TiMove TiBlk TiStep TiSys TiExt TiTs TiCur TiSeek.
Import ListNotations.

Section loop.
Context {K V : Type} (leb : K -> K -> bool) (HO : tord leb).
Notation klt := (klt leb).
Notation SI := (SI leb).
Notation Stb := (Stb leb).
Notation Pres := (Pres leb).
Notation Cur := (Cur leb).
Notation Fst := (Fst leb).
Notation Gm := (Gm leb).
Notation le_k := (fun a d : K * V => leb (fst a) (fst d) = true).
Implicit Types (s : ls K V) (x : iter K V) (e j : K * V) (k : K) (c y z b n L lo hi : nat) (D : K * V -> Prop) (o P : list (K * V)).

Lemma in_insk e a l : In e (insk leb a l) <-> e = a \/ In e l.
Proof.
  induction l as [|d r IH]; cbn; [intuition|]. destruct (leb (fst a) (fst d)); cbn; [intuition|]. rewrite IH. intuition.
Qed.
Lemma in_sortk e l : In e (sortk leb l) <-> In e l.
Proof. induction l as [|d r IH]; cbn; [tauto|]. rewrite in_insk, IH. intuition. Qed.
Lemma insk_srt a l : StronglySorted le_k l -> StronglySorted le_k (insk leb a l).
Proof.
  induction 1 as [|d r S IH F]; cbn; [repeat constructor|]. destruct (leb (fst a) (fst d)) eqn:E.
  - constructor; [now constructor|]. constructor; auto. rewrite Forall_forall in *. intros u Hu. eapply (t_trans _ HO); eauto.
  - constructor; auto. rewrite Forall_forall in *. intros u Hu. apply in_insk in Hu as [->|Hu]; [|now apply F].
    destruct (t_total _ HO (fst a) (fst d)); congruence.
Qed.
Lemma sortk_srt l : StronglySorted le_k (sortk leb l).
Proof. induction l; cbn; [constructor|now apply insk_srt]. Qed.

Definition Lst s b o (last : option K) : Prop := forall k, last = Some k -> forall e, Stb s b e -> leb (fst e) k = true -> In e o.
Definition OrdP s b D P : Prop := forall e j, Stb s b e -> In j P -> klt (fst e) (fst j) -> D e \/ In e P.
Definition AllP s b P : Prop := forall e, In e P -> Pres s b e.
Definition Rd s b o z P : Prop :=
  Cur s b z true (fun e => In e o \/ In e P) /\ OrdP s b (fun e => In e o) P /\ AllP s b P /\ StronglySorted le_k P.
Definition nr s b o top n : Prop :=
  lvl (hp (tc s) n) <> 0 /\ Gm s b (fun e => In e o) n
  /\ (top = true -> forall k, Good leb (hp (tc s)) (root (tc s)) (log (tc s)) b k n).
Definition at_it s b o (p : @ipc K V) : Prop :=
  let D := fun e => In e o in let h := hp (tc s) in
  match p with
  | IStart => True
  | INode top n => nr s b o top n
  | IMeta top n M => nr s b o top n /\ (M = meta_of (h n) \/ ver M < ver (meta_of (h n)))
  | ILoad top n M c => nr s b o top n /\ ((M = meta_of (h n) /\ Gm s b D c /\ lvl (h n) = S (lvl (h c))) \/ ver M < ver (meta_of (h n)))
  | IFirst c => Fst s b c D
  | IAt c r last => Rd s b o c r /\ Lst s b o last
  | ILink _ last z => Cur s b z true D /\ Lst s b o last
  | IHop _ last z => Cur s b z false D /\ Lst s b o last
  | INext _ last z => Fst s b z D /\ Lst s b o last
  | ISnap _ last z es => Rd s b o z es /\ Lst s b o last
  | IEnd e => b <= e <= length (log (tc s))
      /\ (forall k v, (forall i, b <= i <= e -> abs leb (at_i (log (tc s)) i) k = Some v) -> In (k, v) o)
      /\ (forall u, In u o -> exists i, b <= i <= e /\ abs leb (at_i (log (tc s)) i) (fst u) = Some (snd u))
  end.
Record It s (x : iter K V) : Prop := {
  it_b : it0 x <= length (log (tc s));
  it_o : AllP s (it0 x) (out x);
  it_p : at_it s (it0 x) (out x) (ipos x) }.

(** ** Steps of others *)
Record Ps s s' b : Prop := {
  p_stb : forall e, Stb s' b e -> Stb s b e;
  p_pres : forall e, Pres s b e -> Pres s' b e;
  p_cur : forall c st D, Cur s b c st D -> Cur s' b c st D;
  p_fst : forall c D, Fst s b c D -> Fst s' b c D;
  p_gm : forall c D, Gm s b D c -> Gm s' b D c;
  p_good : forall k n, Good leb (hp (tc s)) (root (tc s)) (log (tc s)) b k n -> Good leb (hp (tc s')) (root (tc s')) (log (tc s')) b k n;
  p_lvl : forall n, n < fresh (tc s) -> lvl (hp (tc s') n) = lvl (hp (tc s) n);
  p_meta : forall n, n < fresh (tc s) -> meta_of (hp (tc s') n) = meta_of (hp (tc s) n) \/ ver (meta_of (hp (tc s) n)) < ver (meta_of (hp (tc s') n));
  p_log : exists l, log (tc s') = l ++ log (tc s) }.
Lemma it_keep s s' x : Ps s s' (it0 x) -> It s x -> It s' x.
Proof.
  intros P [B O Q]. destruct x as [p b o]. cbn in *.
  assert (forall last, Lst s b o last -> Lst s' b o last) as Pl.
  { intros last Hl k E e S. apply (Hl k E e). now apply (p_stb _ _ _ P). }
  assert (forall z r, Rd s b o z r -> Rd s' b o z r) as Pr.
  { intros z r (R1 & R2 & R3 & R4). split; [now apply (p_cur _ _ _ P)|]. split; [|split; auto].
    - intros e j S. apply R2. now apply (p_stb _ _ _ P).
    - intros e He. apply (p_pres _ _ _ P). auto. }
  assert (forall top n, nr s b o top n -> nr s' b o top n) as Pn.
  { intros top n (N1 & N2 & N3). split; [rewrite (p_lvl _ _ _ P); auto; apply N2|]. split; [now apply (p_gm _ _ _ P)|].
    intros T k. apply (p_good _ _ _ P). auto. }
  assert (forall top n (M : meta), nr s b o top n -> M = meta_of (hp (tc s) n) \/ ver M < ver (meta_of (hp (tc s) n)) ->
    (M = meta_of (hp (tc s) n) /\ M = meta_of (hp (tc s') n)) \/ ver M < ver (meta_of (hp (tc s') n))) as Pm.
  { intros top n M (_ & [Hn _] & _) [E|E]; destruct (p_meta _ _ _ P n Hn) as [E'|E'].
    - left. split; congruence. - right. congruence. - right. congruence. - right. lia. }
  destruct (p_log _ _ _ P) as [l El].
  constructor; cbn; [rewrite El, app_length; lia|intros e He; apply (p_pres _ _ _ P); auto|].
  destruct p as [|top n|top n M|top n M c|c|c r last|c last z|c last z|c last z|c last z es|e]; cbn [at_it] in *; auto.
  - destruct Q as [Q1 Q2]. split; auto. destruct (Pm _ _ _ Q1 Q2) as [[_ E]|E]; auto.
  - destruct Q as [Q1 Q2]. split; auto. destruct Q2 as [(E & G & Lv)|E].
    + destruct (Pm _ _ _ Q1 (or_introl E)) as [[_ E']|E']; auto. left. split; auto. split; [now apply (p_gm _ _ _ P)|].
      rewrite !(p_lvl _ _ _ P); auto; [apply G|apply Q1].
    + destruct (Pm _ _ _ Q1 (or_intror E)) as [[E' _]|E']; auto. rewrite E' in E. lia.
  - now apply (p_fst _ _ _ P).
  - destruct Q; auto.
  - destruct Q. split; auto. now apply (p_cur _ _ _ P).
  - destruct Q. split; auto. now apply (p_cur _ _ _ P).
  - destruct Q. split; auto. now apply (p_fst _ _ _ P).
  - destruct Q; auto.
  - destruct Q as (Q1 & Q2 & Q3). rewrite El, app_length. split; [lia|]. split.
    + intros k v A. apply Q2. intros i Hi. specialize (A i Hi). rewrite at_app in A by lia. exact A.
    + intros u Hu. destruct (Q3 u Hu) as (i & Hi & A). exists i. split; auto. rewrite at_app by lia. exact A.
Qed.
Lemma ps_t s s' b : SI s -> SI s' -> TS leb (tc s) (tc s') -> link s' = link s -> dl s' = dl s -> b <= length (log (tc s)) -> Ps s s' b.
Proof.
  intros I I' T El Ed B. pose proof (ts_x _ _ _ T) as X. constructor.
  - intros. eapply stb_t; eauto.
  - intros. eapply pres_t; eauto.
  - intros. eapply (cur_t leb s s'); eauto.
  - intros. eapply (fst_t leb HO s s'); eauto.
  - intros. eapply (gm_t leb HO s s'); eauto.
  - intros k n G. destruct (ts_log _ _ _ T) as [l E]. rewrite E. eapply good_step; eauto; [apply (HIs leb s I)|apply I].
  - apply (x_lvl _ _ _ _ _ _ _ X).
  - apply (x_meta _ _ _ _ _ _ _ X).
  - apply (ts_log _ _ _ T).
Qed.
Lemma ps_l a s s' b : SI s -> lstep a s = Some s' -> Ps s s' b.
Proof.
  intros I St. pose proof (l_tc _ _ _ St) as Et. constructor.
  - unfold TiCur.Stb. now rewrite Et.
  - unfold TiCur.Pres. now rewrite Et.
  - intros. eapply cur_l; eauto.
  - intros. eapply fst_l; eauto.
  - intros. eapply gm_l; eauto.
  - now rewrite Et.
  - now rewrite Et.
  - rewrite Et. auto.
  - exists []. now rewrite Et.
Qed.

(** ** Steps of its own *)
Lemma stb_of s b k v : (forall i, b <= i <= length (log (tc s)) -> abs leb (at_i (log (tc s)) i) k = Some v) -> Stb s b (k, v).
Proof. intros A i Hi. now apply A. Qed.
Lemma seen_stb s b e : Stb s b e -> Seen leb (log (tc s)) b (fst e) None -> False.
Proof. intros S (i & Hi & A). rewrite (S i Hi) in A. discriminate. Qed.
Lemma emit s b o z P last e r : Rd s b o z P -> Lst s b o last ->
  (forall u, In u (e :: r) -> In u P) -> (forall u, In u P -> In u (e :: r) \/ exists k, last = Some k /\ leb (fst u) k = true) ->
  StronglySorted le_k (e :: r) -> Rd s b (o ++ [e]) z r /\ Lst s b (o ++ [e]) (Some (fst e)) /\ (AllP s b o -> AllP s b (o ++ [e])).
Proof.
  intros (C & Od & Al & _) Hl Sub Sup Sr. apply StronglySorted_inv in Sr as [Sr Fr]. rewrite Forall_forall in Fr.
  assert (forall u, Stb s b u -> In u o \/ In u P -> In u (o ++ [e]) \/ In u r) as Q.
  { intros u S [Hu|Hu]; [left; apply in_app_iff; auto|]. destruct (Sup u Hu) as [[->|Hr]|(k & E & Hk)]; auto; left; apply in_app_iff; [right; left; auto|].
    left. now apply (Hl k). }
  split; [|split].
  - split; [eapply cur_mono; [|exact C]; auto|]. split; [|split; auto].
    + intros u j S Hj Hk. apply Q; auto. apply (Od u j); auto. apply Sub. now right.
    + intros u Hu. apply Al, Sub. now right.
  - intros k [= <-] u S Hk. destruct (klt_dec leb (fst u) (fst e)) as [A|A].
    + destruct (Q u S (Od u e S (Sub e (or_introl eq_refl)) A)) as [|Hr]; auto. specialize (Fr u Hr). unfold TcRoute.klt in A. congruence.
    + apply in_app_iff. right. left. apply (stb_pres leb s b u e); auto; [apply Al, Sub; now left|]. now apply (t_anti _ HO).
  - intros Ao u Hu. apply in_app_iff in Hu as [Hu|[<-|[]]]; auto. apply Al, Sub. now left.
Qed.
Lemma srt_filter (f : K * V -> bool) l : StronglySorted le_k l -> StronglySorted le_k (filter f l).
Proof.
  induction 1 as [|d r S IH F]; cbn; [constructor|]. destruct (f d); auto. constructor; auto.
  rewrite Forall_forall in *. intros u Hu. apply filter_In in Hu as [Hu _]. auto.
Qed.
Lemma fresh_in s y last es u : In u (fresh_only leb s y last es) -> In u es.
Proof. unfold fresh_only. destruct last; auto. destruct (clear s y); auto. intros H. now apply filter_In in H. Qed.
Lemma fresh_not s y last es u : In u es -> In u (fresh_only leb s y last es) \/ exists k, last = Some k /\ leb (fst u) k = true.
Proof.
  intros Hu. unfold fresh_only. destruct last as [k|]; auto. destruct (clear s y); auto. destruct (ltb leb k (fst u)) eqn:E.
  - left. now apply filter_In.
  - right. exists k. split; auto. unfold ltb in E. now apply negb_false_iff in E.
Qed.
Lemma fresh_srt s y last es : StronglySorted le_k es -> StronglySorted le_k (fresh_only leb s y last es).
Proof. intros S. unfold fresh_only. destruct last; auto. destruct (clear s y); auto. now apply srt_filter. Qed.

Lemma it_step s x : SI s -> It s x -> It s (istep leb s x).
Proof.
  intros I [B O Q]. destruct x as [p b o]. cbn in B, O, Q. pose proof (HIs leb s I) as HI.
  assert (forall q, at_it s b o q -> It s (Iter q b o)) as Go by (intros q Hq; now constructor).
  assert ((forall e, Stb s b e -> In e o) -> at_it s b o (IEnd (length (log (tc s))))) as End_.
  { intros A. cbn. split; [lia|]. split; [intros k v S; apply (A (k, v)); now apply stb_of|]. exact O. }
  unfold istep, nd. destruct p as [|top n|top n M|top n M c|c|c r last|c last z|c last z|c last z|c last z es|e]; cbn [ipos it0 out].
  - clear HI. destruct (root (tc s)) as [n|] eqn:R; pose proof (HIs leb s I) as HI.
    + apply Go. cbn. split; [apply (h_root _ _ _ _ _ HI n R)|]. split; [now apply gm_root|]. intros _ k. now apply good_root.
    + apply Go, End_. intros e S. exfalso. pose proof (stb_now leb s b e B S) as A.
      destruct (h_abs2 _ _ _ _ _ HI (fst e)) as (z & Oz & _); [congruence|]. destruct (on_root_ex leb _ _ _ _ Oz). congruence.
  - apply Go. cbn. auto.
  - destruct Q as [Nr Mx]. pose proof Nr as (Ln & [Hn Gn] & Gd). pose proof (h_wf _ _ _ _ _ HI n Hn) as W.
    assert (forall c, (M = meta_of (hp (tc s) n) -> First (hp (tc s) n) = Some c) -> It s (Iter (ILoad top n M c) b o)) as Ld.
    { intros c F. apply Go. cbn. split; auto. destruct Mx as [E|E]; auto. left. split; auto. specialize (F E).
      split; [apply (gm_next leb HO s I b _ n); auto; apply Nr|].
      assert (In c (kids (hp (tc s) n))) as Hc.
      { clear -F. unfold First in F. unfold kids. destruct (cells (hp (tc s) n)) as [|a r]; cbn in *.
        - destruct (ub (hp (tc s) n)); try discriminate. injection F as <-. cbn. auto.
        - injection F as <-. auto. }
      now destruct (kid_lvl leb _ _ _ _ HI n c Hn Hc). }
    destruct (fst M) as [|[k1 j1] rM] eqn:FM.
    + assert ((forall u, ub (hp (tc s) n) <> UTo u) -> It s (if top then Iter (IEnd (length (log (tc s)))) b o else Iter IStart b o)) as Em.
      { intros U. destruct top; [|apply Go; exact Logic.I]. apply Go, End_. intros e S. exfalso. apply (seen_stb s b e S).
        apply (good_none leb _ _ _ _ HI b (fst e) n); auto. unfold nxt, nx. rewrite pos_rts, (w_ub _ _ _ _ W U). cbn.
        destruct (ub (hp (tc s) n)) as [| |u]; auto. now destruct (U u). }
      destruct (ub (hp (tc s) n)) as [| |c] eqn:U; try (apply Em; discriminate). apply Ld. intros E. unfold First.
      rewrite E in FM. unfold meta_of in FM. cbn in FM. destruct (cells (hp (tc s) n)); [|discriminate]. now rewrite U.
    + destruct (slot_child (cells (hp (tc s) n)) j1) as [c|] eqn:Sc; [|apply Go; exact Nr]. apply Ld. intros E. unfold First.
      rewrite E in FM. unfold meta_of in FM. cbn in FM. destruct (cells (hp (tc s) n)) as [|a r]; [discriminate|]. cbn in FM, Sc. injection FM as _ <- _.
      rewrite Nat.eqb_refl in Sc. exact Sc.
  - destruct Q as [Nr Mx]. destruct (meta_eqb leb M (meta_of (hp (tc s) n))) eqn:Em; [|apply Go; exact Nr].
    apply (meta_eqb_eq leb HO) in Em. destruct Mx as [(_ & Gc & Lc)|Mx]; [|rewrite Em in Mx; lia].
    destruct (Nat.eqb_spec (lvl (hp (tc s) n)) 1) as [L1|L1].
    + apply Go. cbn. apply (gm_leaf leb HO s I); auto. lia.
    + apply Go. cbn. destruct Nr as (Ln & _). split; [lia|]. split; auto. discriminate.
  - apply Go. cbn. destruct Q as [C Od P]. split; [|discriminate]. split; [|split; [|split]].
    + apply cur_read; auto. intros e. apply in_sortk.
    + intros e j S Hj Hk. rewrite in_sortk in *. eauto.
    + intros e He. apply P. now rewrite in_sortk in He.
    + apply sortk_srt.
  - destruct Q as [R Hl]. destruct r as [|e r].
    + apply Go. cbn. split; auto. destruct R as [C _]. eapply cur_mono; [|exact C]. cbn. tauto.
    + destruct (emit s b o c (e :: r) last e r R Hl) as (E1 & E2 & E3); auto; [apply R|].
      constructor; cbn; auto.
  - destruct Q as [C Hl]. destruct (link s z) as [z'|] eqn:E.
    + apply Go. cbn. split; auto. eapply cur_next; eauto.
    + apply Go, End_. intros e S. destruct (c_cov _ _ _ _ _ _ C e S) as [|(y & _ & _ & [Y|[Y _]])]; auto; [|discriminate].
      exfalso. inversion Y; congruence.
  - destruct Q as [C Hl]. destruct (dl s z) eqn:E; apply Go; cbn; split; auto; [now apply cur_skip|]. now apply (fst_of leb HO).
  - destruct Q as [[C Od P] Hl]. apply Go. cbn. split; auto. split; [|split; [|split]].
    + apply cur_read; auto. intros e. apply in_sortk.
    + intros e j S Hj Hk. rewrite in_sortk in *. eauto.
    + intros e He. apply P. now rewrite in_sortk in He.
    + apply sortk_srt.
  - destruct Q as [R Hl]. destruct (fresh_only leb s c last es) as [|e r] eqn:F.
    + apply Go. cbn. split; auto. destruct R as [C _]. eapply cur_mono; [|exact C]. intros e S [|He]; auto.
      destruct (fresh_not s c last es e He) as [G|(k & E & Hk)]; [rewrite F in G; destruct G|]. now apply (Hl k).
    + destruct (emit s b o z es last e r R Hl) as (E1 & E2 & E3).
      * intros u Hu. rewrite <- F in Hu. now apply fresh_in in Hu.
      * intros u Hu. rewrite <- F. now apply fresh_not.
      * rewrite <- F. apply fresh_srt, R.
      * constructor; cbn; auto.
  - now constructor.
Qed.

(** ** Runs *)
Definition strip s : ls K V := Ls (tc s) (link s) (dl s) (mk s) (sg s) (fun _ => None).
Definition RI s : Prop := SI s /\ forall i x, its s i = Some x -> It (strip s) x.
Lemma t_parts a s s' : tstep leb a s = Some s' -> step leb a (tc s) = Some (tc s') /\ link s' = link s /\ dl s' = dl s /\ its s' = its s.
Proof.
  unfold tstep. destruct (step leb a (tc s)) as [t|]; [|discriminate]. intros H.
  assert (forall n g g', need s n g g' t = Some s' -> Some t = Some (tc s') /\ link s' = link s /\ dl s' = dl s /\ its s' = its s) as Q.
  { intros n g g' N. unfold need in N. destruct (is1 s n); [destruct (is_g (sg s n) g); [|discriminate]|]; injection N as <-; auto. }
  destruct a; repeat match type of H with context [match ?e with _ => _ end] => lazymatch e with need _ _ _ _ _ => fail | _ => destruct e; try discriminate end end;
    first [now apply Q in H|injection H as <-; auto].
Qed.
Lemma l_its a s s' : lstep a s = Some s' -> its s' = its s /\ lstep a (strip s) = Some (strip s').
Proof.
  intros St. destruct a; cbn [lstep] in *; unfold is1, nd in *; cbn [tc sg strip] in *;
    repeat match type of St with context [match ?e with _ => _ end] => destruct e; try discriminate end; injection St as <-; auto.
Qed.
Lemma ri_step a s s' : RI s -> lsstep leb a s = Some s' -> RI s'.
Proof.
  intros [I A] St. pose proof (si_step leb HO a s s' I St) as I'. split; auto. destruct a as [a|a|[i|i]]; cbn [lsstep] in St.
  - destruct (t_parts _ _ _ St) as (E1 & E2 & E3 & E4). intros i x Hx. rewrite E4 in Hx. specialize (A i x Hx).
    apply (it_keep (strip s)); auto. apply ps_t; auto. apply (ts_step leb HO a); auto; [apply I|].
    intros y. apply (q_nd _ _ _ _ _ _ _ _ (LI leb s I)). apply (it_b _ _ A).
  - destruct (l_its _ _ _ St) as (E1 & E2). intros i x Hx. rewrite E1 in Hx. specialize (A i x Hx). apply (it_keep (strip s)); auto.
    now apply (ps_l a).
  - destruct (its s i) eqn:Ei; [discriminate|]. injection St as <-. intros i' x Hx. cbn in Hx. unfold upd in Hx.
    destruct (Nat.eqb_spec i' i) as [->|N]; [|exact (A i' x Hx)]. injection Hx as <-. constructor; cbn; [lia|intros ? []|exact Logic.I].
  - destruct (its s i) as [x0|] eqn:Ei; [|discriminate]. injection St as <-. intros i' x Hx. cbn in Hx. unfold upd in Hx.
    destruct (Nat.eqb_spec i' i) as [->|N]; [|exact (A i' x Hx)]. injection Hx as <-.
    exact (it_step (strip s) x0 I (A i x0 Ei)).
Qed.
Lemma ri_run l : forall s s', RI s -> lsrun leb l s = Some s' -> RI s'.
Proof.
  induction l as [|a l IH]; cbn; intros s s' R H; [now injection H as <-|]. destruct (lsstep leb a s) as [s1|] eqn:E; [|discriminate].
  apply (IH s1); auto. now apply (ri_step a s).
Qed.
Lemma ri_init : RI linit.
Proof. split; [apply (si_init leb)|]. cbn. discriminate. Qed.
End loop.
