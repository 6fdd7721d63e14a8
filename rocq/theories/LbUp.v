(** A range with two bounds stays below the upper one as long as no removal beyond it takes effect. *)
From Coq Require Import List Arith Bool Lia Sorted.
From Verif Require Import TcModel TcRoute TcSpec TcInv TcTree TcFrame TcJobs TcFz TcFzs TcExt TcSys TcOps TcRun TiMove TiExt TiTs
  TcLin TcLins TiModel TiSpec TiSys TiCur TiLoop TiCalls TiEx RgModel RgSpec RgFacts LbModel LbSpec.
Import ListNotations.

Section up.
Context {K V : Type} (leb : K -> K -> bool) (HO : tord leb).
Implicit Types (z t i j n : nat) (e : K * V).

(** A run with such ranges is a run of TiModel. *)
Lemma lbstep_ls (a : lbact K V) (s s' : lbs K V) : lbstep leb a s = Some s' ->
  exists l, lsrun leb l (bl s) = Some (bl s') /\ forall c, In c l -> a = BL c.
Proof.
  intros H. destruct a as [a|i l u|i]; cbn [lbstep] in H.
  - destruct (lsstep leb a (bl s)) as [s1|] eqn:E; [|discriminate]. injection H as <-. exists [a]. cbn. rewrite E. split; auto. intros c [->|[]]; auto.
  - destruct (lrs s i); [discriminate|]. injection H as <-. exists []. split; auto. intros c [].
  - destruct (lrs s i) as [r|]; [|discriminate]. destruct (lnext leb s r); [|discriminate]. injection H as <-. exists []. split; auto. intros c [].
Qed.
Lemma lbrun_ls (l : list (lbact K V)) : forall s s', lbrun leb l s = Some s' ->
  exists l', lsrun leb l' (bl s) = Some (bl s') /\ forall c, In c l' -> In (BL c) l.
Proof.
  induction l as [|a l IH]; cbn; intros s s' H; [injection H as <-; exists []; split; auto|].
  destruct (lbstep leb a s) as [s1|] eqn:E; [|discriminate]. destruct (lbstep_ls _ _ _ E) as (l1 & H1 & G1). destruct (IH _ _ H) as (l2 & H2 & G2).
  exists (l1 ++ l2). rewrite (lsrun_app leb _ _ _ _ H1). split; auto. intros c Hc. apply in_app_or in Hc as [Hc|Hc]; [left|right]; auto.
Qed.

Section inv.
Context (b : ubd K) (N i : nat).
Notation far e := (beyond leb b (fst e) = true).
Notation JR := (JR leb b).
Definition core (r : lr K V) : rg K V := Rg (lup r) (uchk r) (lpend r) (ly r) (lend r).
Definition LJ (s : lbs K V) : Prop := forall r, lrs s i = Some r -> lup r = b ->
  match ph r with PD _ => ly r = [] | PI x => JR (hp (tc (bl s))) x (core r) end.

Lemma judge_ly (r : lr K V) c e x : lup r = b -> (forall e, In e (ly r) -> beyond leb b (fst e) = false) ->
  (far e -> c = true) -> forall e', In e' (ly (judge leb r c e x)) -> beyond leb b (fst e') = false.
Proof.
  intros Hb A F e' I. unfold judge in I. rewrite Hb in I. destruct (lchk r && _); [cbn in I; auto|]. destruct (beyond leb b (fst e)) eqn:B.
  - rewrite (F eq_refl) in I. cbn in I. auto.
  - rewrite andb_false_r in I. cbn in I. apply in_app_or in I as [I|[<-|[]]]; auto.
Qed.
Lemma judge_parts (r : lr K V) c e x : lup (judge leb r c e x) = lup r /\ uchk (judge leb r c e x) = c /\ lpend (judge leb r c e x) = None /\ ph (judge leb r c e x) = PI x.
Proof. unfold judge. destruct (lchk r && _); [cbn; auto|]. destruct (_ && _); cbn; auto. Qed.

Lemma lj_next s r r' : lnext leb s r = Some r' -> (lup r = b -> match ph r with PD _ => ly r = [] | PI x => JR (hp (tc (bl s))) x (core r) end) ->
  lup r' = b -> match ph r' with PD _ => ly r' = [] | PI x => JR (hp (tc (bl s))) x (core r') end.
Proof.
  intros H Q Hb. unfold lnext in H. destruct (lend r) eqn:Re; [discriminate|]. destruct (ph r) as [d|x].
  - assert (lup r = lup r') as E by (destruct (dstep leb (llo r) (bl s) d); injection H as <-; reflexivity). rewrite E in Q. specialize (Q Hb).
    destruct (dstep leb (llo r) (bl s) d) as [d'|c e rest|] eqn:D; injection H as <-; cbn; auto.
    assert (forall u, In u (e :: rest) -> In u (ents (hp (tc (bl s)) c))) as Sub.
    { assert (exists p, sortk leb (ents (nd (bl s) c)) = p ++ e :: rest) as [p Ep].
      { destruct d as [|rt n st|rt n M st|rt n M c0 st|rt n c0 st|rt f n k|rt f n M [|[q j] r0] k|rt f n M r0 u c0 k|rt c0 k|rt c0 k|rt c0 k]; cbn [dstep] in D.
        - destruct (root _); [destruct (lkey _)|]; discriminate.
        - discriminate.
        - destruct (lkey _); [|discriminate]. destruct (less_slot _ _ _); [|discriminate]. destruct (slot_child _ _); discriminate.
        - destruct (meta_eqb _ _ _); [destruct (_ =? 1)|]; discriminate.
        - destruct (lkey _); [|discriminate]. destruct (less_entry leb _ k) as [[e1 r1]|] eqn:E1; [|discriminate]. injection D as <- <- <-.
          clear - E1. revert E1. generalize (sortk leb (ents (nd (bl s) c0))). intros es. revert e1 r1.
          induction es as [|a es IH]; cbn; intros e r H; [discriminate|]. destruct (ltb leb (fst a) k); [|discriminate].
          destruct (less_entry leb es k) as [[e1 r1]|].
          + injection H as <- <-. destruct (IH _ _ eq_refl) as [p ->]. now exists (a :: p).
          + injection H as <- <-. now exists [].
        - discriminate.
        - assert (match f with [] => no_min rt k | (n', M', r') :: f' => RGo (MMeta rt f' n' M' r' k) end = RAt c e rest -> False) as X.
          { destruct f as [|[[? ?] ?] ?]; [|discriminate]. destruct k; [|discriminate]. destruct st; discriminate. }
          destruct (ub (nd (bl s) n)); try destruct (X D). discriminate.
        - destruct (slot_child _ _); discriminate.
        - destruct (meta_eqb _ _ _); [destruct (_ =? 1)|]; discriminate.
        - destruct (sortk leb (ents (nd (bl s) c0))) as [|e1 r1] eqn:Es; [discriminate|].
          assert (RAt c0 e1 r1 = RAt c e rest -> exists p, sortk leb (ents (nd (bl s) c)) = p ++ e :: rest) as X.
          { intros [= <- <- <-]. exists []. exact Es. }
          destruct k; auto. destruct (lkey _); [|discriminate]. destruct (leb _ _); auto. destruct st; discriminate.
        - destruct (link _ _); [discriminate|]. destruct k; [|discriminate]. destruct st; discriminate.
        - destruct (dl _ _); discriminate. }
      intros u Hu. change (hp (tc (bl s)) c) with (nd (bl s) c). apply (in_sortk leb). rewrite Ep. apply in_or_app. now right. }
    constructor; cbn.
    + rewrite Q. intros ? [].
    + intros u Hu _. apply Sub. now right.
    + intros u [= <-]. eexists _, _, _. split; [reflexivity|]. intros _. apply Sub. now left.
    + discriminate.
  - destruct (lpend r) as [e|] eqn:Pe.
    + destruct (ipos x) as [| | | | |z rest last| | | | |] eqn:Px; try discriminate. injection H as <-.
      destruct (judge_parts r (bound_flag leb (lup r) (ents (nd (bl s) z))) e x) as (E1 & E2 & E3 & E4). rewrite E4. rewrite E1 in Hb.
      destruct (Q Hb) as [A B C D]. cbn in A, C, D.
      destruct (C e Pe) as (z1 & rest1 & last1 & P1 & F). rewrite Px in P1. injection P1 as <- <- <-.
      rewrite Hb in *. change (nd (bl s) z) with (hp (tc (bl s)) z) in *. constructor; cbn.
      * apply judge_ly; auto. intros Fe. eapply flag_true; eauto.
      * exact B.
      * intros e0. rewrite E3. discriminate.
      * intros z0 rest0 k _ _ P0. rewrite Px in P0. injection P0 as <- <- ->. rewrite E2.
        destruct (bound_flag leb b (ents (hp (tc (bl s)) z))) eqn:Bf; auto. right. intros e0 I0.
        destruct (beyond leb b (fst e0)) eqn:B0; auto. unfold carried in B. rewrite Px in B. specialize (B _ I0 B0).
        rewrite (flag_true leb HO b _ e0 B B0) in Bf. discriminate.
    + assert (lup r = b) as Hb0.
      { destruct (emits leb (bl s) x); [destruct (same_leaf x)|]; injection H as <-; auto. now rewrite (proj1 (judge_parts _ _ _ _)) in Hb. }
      destruct (Q Hb0) as [A B C D]. cbn in A, C, D. clear Q C. unfold carried in B. unfold emits, same_leaf in H.
      assert (forall x', carried leb b (hp (tc (bl s))) x' -> (forall z rest k, ipos x' <> IAt z rest (Some k)) ->
        JR (hp (tc (bl s))) x' (core (Lr (llo r) (lup r) (lchk r) (uchk r) None (ly r) (over x') (PI x')))) as Triv.
      { intros x' Hc Hn. constructor; cbn; auto; [discriminate|]. intros z rest k _ _ P. now apply Hn in P. }
      destruct (ipos x) as [|top n|top n M|top n M c|c|c [|e rest] last|c last z|c last z|c last z|c last z es|e0] eqn:Px; try (injection H as <-; cbn [ph]).
      * apply Triv; unfold istep; rewrite Px; destruct (root (tc (bl s))); cbn; auto; discriminate.
      * apply Triv; unfold istep; rewrite Px; cbn; auto; discriminate.
      * apply Triv; unfold istep; rewrite Px; unfold carried; (destruct (fst M) as [|[? ?] ?]; [destruct (ub (nd (bl s) n)); try destruct top|destruct (slot_child _ _)]); cbn; auto; discriminate.
      * apply Triv; unfold istep; rewrite Px; unfold carried; repeat match goal with |- context [if ?e then _ else _] => destruct e end; cbn; auto; discriminate.
      * apply Triv; unfold istep; rewrite Px; unfold carried; cbn; try discriminate. intros e He _. exact (proj1 (in_sortk leb _ _) He).
      * apply Triv; unfold istep; rewrite Px; unfold carried; cbn; auto; discriminate.
      * assert (carried leb b (hp (tc (bl s))) (istep leb (bl s) x)) as Hc.
        { unfold istep, carried. rewrite Px. cbn. intros e1 I1. apply B. now right. }
        destruct last as [k|]; injection H as <-.
        -- destruct (judge_parts r (uchk r) e (istep leb (bl s) x)) as (E1 & E2 & E3 & E4). rewrite E4. constructor; cbn.
           ++ apply judge_ly; auto. intros Fe. destruct (D c (e :: rest) k Pe Re eq_refl) as [|D1]; auto. rewrite (D1 e) in Fe by now left. discriminate.
           ++ exact Hc.
           ++ intros e1. rewrite E3. discriminate.
           ++ intros z1 rest1 k1 _ _ P1. unfold istep in P1. rewrite Px in P1. cbn in P1. injection P1 as <- <- <-. rewrite E2.
              destruct (D c (e :: rest) k Pe Re eq_refl) as [|D1]; auto. right. intros e1 I1. apply D1. now right.
        -- cbn [ph]. constructor; cbn; auto; try discriminate. intros e1 [= <-]. unfold istep. rewrite Px. cbn. eexists _, _, _. split; [reflexivity|].
           intros Fe. apply B; auto. now left.
      * apply Triv; unfold istep; rewrite Px; unfold carried; destruct (link (bl s) z); cbn; auto; discriminate.
      * apply Triv; unfold istep; rewrite Px; unfold carried; destruct (dl (bl s) z); cbn; auto; discriminate.
      * apply Triv; unfold istep; rewrite Px; unfold carried; cbn; try discriminate. intros e He _. exact (proj1 (in_sortk leb _ _) He).
      * assert (forall e, In e (fresh_only leb (bl s) c last es) -> In e es) as Sub.
        { intros e. unfold fresh_only. destruct last; auto. destruct (clear _ _); auto. intros I. now apply filter_In in I. }
        destruct (fresh_only leb (bl s) c last es) as [|e rest] eqn:Fo; injection H as <-; cbn [ph].
        -- apply Triv; unfold istep; rewrite Px, Fo; cbn; auto; discriminate.
        -- constructor; cbn; auto; try discriminate.
           ++ unfold carried, istep. rewrite Px, Fo. cbn. intros e1 I1. apply B. apply Sub. now right.
           ++ intros e1 [= <-]. unfold istep. rewrite Px, Fo. cbn. eexists _, _, _. split; [reflexivity|]. intros Fe. apply B; auto. apply Sub. now left.
      * apply Triv; unfold istep; rewrite Px; unfold carried; try rewrite Px; cbn; auto; discriminate.
Qed.

Lemma lj_step (a : lbact K V) s s' : Inv leb (tc (bl s)) -> lbstep leb a s = Some s' -> clean leb b N (log (tc (bl s'))) -> N <= length (log (tc (bl s))) -> LJ s -> LJ s'.
Proof.
  intros I H C L Hj. destruct a as [a|j l u|j]; cbn [lbstep] in H.
  - destruct (lsstep leb a (bl s)) as [s1|] eqn:E; [|discriminate]. injection H as <-. cbn [bl lrs] in *.
    assert (forall z e, In e (ents (hp (tc (bl s)) z)) -> far e -> In e (ents (hp (tc s1) z))) as Q.
    { intros z e Hz Fe. destruct a as [a|a|[j|j]]; cbn [lsstep] in E.
      - apply t_parts in E as (St & _). destruct (stay leb HO _ _ _ z e I St Hz) as [|[u Eu]]; auto. rewrite Eu in C. destruct (clean_new leb b N _ _ _ C L Fe).
      - now rewrite (l_tc _ _ _ E).
      - destruct (its (bl s) j); [discriminate|]. injection E as <-. exact Hz.
      - destruct (its (bl s) j); [|discriminate]. injection E as <-. exact Hz. }
    intros r Hr Hb. specialize (Hj r Hr Hb). cbn [bl]. destruct (ph r); auto. eapply jr_heap; eauto.
  - destruct (lrs s j) eqn:Ej; [discriminate|]. injection H as <-. intros r Hr Hb. cbn [bl lrs] in *.
    destruct (Nat.eq_dec i j) as [->|Nj]; [|rewrite upd_ne in Hr by auto; exact (Hj r Hr Hb)]. rewrite upd_eq in Hr. injection Hr as <-. reflexivity.
  - destruct (lrs s j) as [r0|] eqn:Ej; [|discriminate]. destruct (lnext leb s r0) as [r1|] eqn:En; [|discriminate]. injection H as <-.
    intros r Hr Hb. cbn [bl lrs] in *. destruct (Nat.eq_dec i j) as [->|Nj]; [|rewrite upd_ne in Hr by auto; exact (Hj r Hr Hb)].
    rewrite upd_eq in Hr. injection Hr as <-. eapply lj_next; eauto. intros Hb'. apply Hj; auto; congruence.
Qed.
Lemma lj_run l : forall s s', SI leb (bl s) -> lbrun leb l s = Some s' -> clean leb b N (log (tc (bl s'))) -> N <= length (log (tc (bl s))) -> LJ s -> LJ s'.
Proof.
  induction l as [|a l IH]; cbn; intros s s' I H C L Hj; [now injection H as <-|].
  destruct (lbstep leb a s) as [s1|] eqn:E; [|discriminate].
  destruct (lbrun_ls _ _ _ H) as (l2 & H2 & _). destruct (run_tc leb _ _ _ H2) as [a2 Ha2]. destruct (log_run leb _ _ _ Ha2) as [d2 D2].
  destruct (lbstep_ls _ _ _ E) as (l1 & H1 & _). destruct (run_tc leb _ _ _ H1) as [a1 Ha1]. destruct (log_run leb _ _ _ Ha1) as [d1 D1].
  apply (IH s1 s'); auto.
  - eapply si_run; eauto.
  - rewrite D1, app_length. lia.
  - eapply lj_step; eauto; [apply I|]. rewrite D2 in C. now apply clean_back in C.
Qed.
End inv.

Lemma span_up la lb (sa s : lbs K V) i l b y : lbrun leb la lbinit = Some sa -> lbrun leb lb sa = Some s ->
  all_returned (bl sa) (removes_beyond leb b) -> none_begins (bl sa) (bl s) (removes_beyond leb b) ->
  lrs sa i = None -> spanned s i l b y -> forall k v, In (k, v) y -> in_upper leb b k.
Proof.
  intros Ra Rb Al No Ni (r & Hr & _ & Hb & <-) k v I. apply (upper_ok leb HO).
  destruct (lbrun_ls _ _ _ Ra) as (la' & Ra' & _). destruct (lbrun_ls _ _ _ Rb) as (lb' & Rb' & _).
  assert (lsrun leb ([] : list (lsact K V)) (bl s) = Some (bl s)) as Rc' by reflexivity.
  assert (clean leb b (length (log (tc (bl sa)))) (log (tc (bl s)))) as C.
  { intros j t k' E B. eapply (old leb HO la' lb' [] (bl sa) (bl s) (bl s) Ra' Rb' Rc' (removes_beyond leb b) Al No); [exact E|].
    intros q before (cond & w & -> & _). exists k', cond. rewrite (upper_ok leb HO), B. split; [discriminate|auto]. }
  assert (LJ b i sa) as J0 by (intros r0 Hr0; congruence).
  assert (SI leb (bl sa)) as Isa by (eapply (si_run leb HO); [apply si_init|exact Ra']).
  pose proof (lj_run b _ i lb sa s Isa Rb C (le_n _) J0 r Hr Hb) as Q. destruct (ph r) as [d|x].
  - rewrite Q in I. destruct I.
  - apply (j_y _ _ _ _ _ Q (k, v)). exact I.
Qed.
Lemma bcall_in (l : list (lbact K V)) (s s' : lbs K V) t q : lbrun leb l s = Some s' -> call (bl s') t q ->
  call (bl s) t q \/ In (BL (LT (AInv t q))) l.
Proof.
  intros R C. destruct (lbrun_ls _ _ _ R) as (l' & R' & G). destruct (call_in leb l' _ _ t q R' C) as [|I]; [now left|]. right. now apply G.
Qed.
End up.
