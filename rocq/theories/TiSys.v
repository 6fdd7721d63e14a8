(** Every step of the tree, of the list and of an iterator keeps the invariant of the tree and its list. *)
From Coq Require Import List Arith Bool Lia.
From Verif Require Import TcModel TcRoute TcSpec TcInv TcTree TcFrame TcKeep TcJobs TcSplit TcFrz TcMove TcGrow TcFz TcFzs TcExt TcOps TcSys TcRun TiModel TiInv TiConv TiList TiMove TiBlk TiPush TiStep TiSysA TiSysB TiSysC TiSysD TiSysE TiSysF.
Import ListNotations.

Section sys.
Context {K V : Type} (leb : K -> K -> bool) (HO : tord leb).
Notation Inv := (Inv leb).
Definition SS (t : st K V) (nx : nat -> option nat) (d : nat -> bool) (g : nat -> stg) : Prop :=
  SJ leb (hp t) (fresh t) (root t) nx d g.

Lemma is_g_eq a b : is_g a b = true -> a = b.
Proof.
  destruct a as [| | | | | |c|[i|]], b as [| | | | | |c'|[j|]]; cbn; try discriminate; auto; intros H; apply Nat.eqb_eq in H; now subst.
Qed.
Lemma need_inv (s : ls K V) n g g' t s' : need s n g g' t = Some s' -> exists g1,
  s' = Ls t (link s) (dl s) (mk s) g1 (its s) /\ (forall m, m <> n -> g1 m = sg s m)
  /\ (lvl (hp (tc s) n) = 1 -> sg s n = g /\ g1 n = g') /\ (lvl (hp (tc s) n) <> 1 -> g1 n = sg s n).
Proof.
  unfold need, is1, nd. destruct (Nat.eqb_spec (lvl (hp (tc s) n)) 1) as [L|L].
  - destruct (is_g (sg s n) g) eqn:E; [|discriminate]. intros [= <-]. exists (upd (sg s) n g'). split; [reflexivity|].
    split; [intros; now apply upd_ne|]. split; [|tauto]. intros _. split; [now apply is_g_eq|apply upd_eq].
  - intros [= <-]. exists (sg s). split; [reflexivity|]. split; auto. split; [tauto|auto].
Qed.
Section one.
Context (s : st K V) (I : Inv s) (nx : nat -> option nat) (d : nat -> bool) (g : nat -> stg) (J0 : SS s nx d g).
Notation HI := (i_h leb s I).
Notation FI := (i_f leb s I).

Lemma ss_g0 n : lvl (hp s n) <> 1 -> g n = G0.
Proof. apply (g0_not1 leb _ _ _ _ _ _ J0). Qed.
Lemma ss_take n o b s' g' : take s n o b = Some s' -> (forall c, ptr (hp s n) o = Some c -> lvl (hp s c) = 1 -> g c = GLo) ->
  (forall m, g' m = g m) -> SS s' nx d g'.
Proof.
  intros H G Es. unfold take in H.
  destruct (jb (hp s n)) eqn:J; try discriminate. destruct (ptr (hp s n) o) as [c|] eqn:Hp; [|discriminate].
  destruct (lvl (hp s c)) as [|lc] eqn:Lc; [discriminate|].
  destruct (jb (hp s c)) as [| | | | | | |o1 c1 m1 lo1 hi1 [tk|] lns1| |] eqn:Jc; try discriminate.
  destruct (build (hp s c) o1 m1 lo1 hi1 b n) as [[[mid xl] xh]|] eqn:Hb; [|discriminate].
  injection H as <-.
  assert (lvl (hp s c) <> 0) as Lc' by congruence.
  pose proof (sj_take leb HO _ _ _ _ _ _ J0 _ HI FI n c o o1 c1 m1 lo1 hi1 lns1 _ b mid xl xh g' J Hp Lc' Jc Hb eq_refl (G c eq_refl) Es) as Q.
  rewrite Lc in Q. exact Q.
Qed.
Lemma ss_ins n s' g' : ins_low leb s n = Some s' -> (lvl (hp s n) = 1 -> g n = GLo) -> (forall m, g' m = g m) -> SS s' nx d g'.
Proof.
  intros H G Es. unfold ins_low in H. destruct (jb (hp s n)) as [| | | | |o c m low high| | | |] eqn:J; try discriminate.
  destruct (ok_ins leb HO _ _ _ _ HI FI n o c m low high J) as [_ Hk]. rewrite Hk in H. injection H as <-.
  exact (sj_ins leb HO _ _ _ _ _ _ J0 _ HI FI n o c m low high g' J G Es).
Qed.
Lemma ss_swap n s' g' : swap_high s n = Some s' -> (lvl (hp s n) = 1 -> g n = GDel) -> g' n = G0 -> (forall m, m <> n -> g' m = g m) -> SS s' nx d g'.
Proof.
  intros H G Gn Es. unfold swap_high in H.
  destruct (jb (hp s n)) as [| | | |o c low| |o c m low high [|]| | |] eqn:J; try discriminate; injection H as <-.
  - destruct (locked_lt leb _ _ _ _ HI FI n) as [Hn Ln]; [congruence|].
    assert (jv (jb (hp s n)) = Some (o, c, None, low, low)) as Jv by now rewrite J.
    pose proof (l_none _ _ _ _ _ _ _ _ _ (h_hld _ _ _ _ _ HI _ _ _ _ _ _ Hn Jv) eq_refl) as L0.
    destruct (jv_c_lt leb _ _ _ _ HI _ _ _ _ _ _ Hn Jv) as [_ Lc]. rewrite L0 in Lc.
    exact (sj_swap0 leb HO _ _ _ _ _ _ J0 _ HI FI n o c low g' J (G Lc) Gn Es).
  - pose proof (sj_swap leb HO _ _ _ _ _ _ J0 _ HI FI n o c m low high g' J G Gn Es) as Q.
    unfold commit_child. cbv zeta in Q. unfold SS. destruct (jb (hp s c)) eqn:Jc; exact Q.
Qed.

(** Steps of the holder of a lock that ask for no stage. *)
Definition plain (a : act K V) : bool :=
  match a with
  | SUnlock _ | SFrz _ _ _ | SIns _ | SFull _ | SThaw _ | SSwap _ | STake _ _ _ | SRSplit _ | SCommit _ | SRoll _ | SRem _ _ | SRet _ | SRNone => false
  | _ => true
  end.
Lemma ss_plain a s' : plain a = true -> step_sys leb a s = Some s' -> SS s' nx d g.
Proof.
  intros Pa H. pose proof (i_k leb s I) as HK.
  destruct a; try discriminate; cbn [step_sys] in H; clear Pa.
  - (* SLock *)
    destruct (lvl (hp s n)) as [|ln] eqn:L; [discriminate|]. destruct (jb (hp s n)) eqn:J; try discriminate.
    destruct (_ || _) eqn:D; [|discriminate]. injection H as <-.
    assert (n < fresh s /\ (Live leb (hp s) (root s) n \/ ub (hp s n) = URet)) as [Hn Lv].
    { apply orb_true_iff in D as [D|D].
      - destruct (ops s t) as [p|] eqn:E; [|discriminate]. apply existsb_exists in D as (y & Hy & Ey).
        apply Nat.eqb_eq in Ey. subst y. apply (near_live leb s p n I); auto. apply (o_vis _ _ _ _ _ _ (i_op leb s I t p E)). auto.
      - destruct (root s) as [q|] eqn:R; [|discriminate]. apply Nat.eqb_eq in D. subst q.
        destruct (h_root _ _ _ _ _ HI n R) as (Hn & _). split; auto. left.
        destruct HK as [k]; [discriminate|]. exists k. now constructor. }
    assert (lvl (hp s n) <> 0) as L' by congruence.
    exact (sj_lock leb HO _ _ _ _ _ _ J0 _ HI FI n g Hn L' J Lv (fun _ => eq_refl)).
  - (* SUb *)
    destruct (jb (hp s n)) eqn:J; try discriminate. destruct (lvl (hp s n)) as [|[|ln]] eqn:L; try discriminate.
    destruct (ub (hp s n)) as [| |c] eqn:U; try discriminate.
    destruct (rev (cells (hp s n))) as [|[sk [j dd]] rr] eqn:Rv; [discriminate|].
    destruct (retired (hp s c)) eqn:R; [|discriminate]. injection H as <-.
    assert (cells (hp s n) = rev rr ++ [(sk, (j, dd))]) as Hcs.
    { rewrite <- (rev_involutive (cells (hp s n))), Rv. reflexivity. }
    assert (lvl (hp s n) <> 1) as L1 by congruence.
    exact (sj_ub leb HO _ _ _ _ _ _ J0 _ HI FI n (rev rr) sk j c dd g J U Hcs R L1 (fun _ => eq_refl)).
  - (* SUbRem *)
    destruct (jb (hp s n)) eqn:J; try discriminate. injection H as <-.
    exact (sj_ubrem leb HO _ _ _ _ _ _ J0 _ HI FI n _ g J (fun _ => eq_refl)).
  - (* SRPop *)
    destruct (root s) as [n|] eqn:Rt; [|discriminate]. destruct (jb (hp s n)) eqn:J; try discriminate.
    destruct (lvl (hp s n)) as [|[|ln]] eqn:L; try discriminate. destruct (cells (hp s n)) eqn:Hcs; [|discriminate].
    destruct (ub (hp s n)) as [| |c] eqn:U; try discriminate. injection H as <-.
    assert (lvl (hp s n) <> 1) as L1 by congruence.
    exact (sj_pop leb HO _ _ _ _ _ _ J0 _ (i_h leb s I) (i_f leb s I) n c g Rt J Hcs U L1 (fun _ => eq_refl)).
Qed.

(** The others. *)
Lemma ss_unlock n s' g' : step_sys leb (SUnlock n) s = Some s' -> (lvl (hp s n) = 1 -> g n = G0 /\ g' n = G0) -> (lvl (hp s n) <> 1 -> g' n = g n) ->
  (forall m, m <> n -> g' m = g m) -> SS s' nx d g'.
Proof.
  intros H G1 G2 Es. cbn [step_sys] in H. destruct (jb (hp s n)) eqn:J; try discriminate. injection H as <-.
  refine (sj_unlock leb HO _ _ _ _ _ _ J0 _ HI FI n g' J _ Es _); [tauto|].
  destruct (Nat.eq_dec (lvl (hp s n)) 1) as [L|L]; [tauto|]. rewrite G2 by auto. now apply ss_g0.
Qed.
Lemma ss_frz n o m s' g' : step_sys leb (SFrz n o m) s = Some s' -> (lvl (hp s n) = 1 -> g n = G0 /\ g' n = G0) ->
  (forall m, m <> n -> g' m = g m) -> SS s' nx d g'.
Proof.
  intros H G1 Es. cbn [step_sys] in H.
  assert (forall l, jb (hp s n) = Locked -> lvl (hp s n) = 1 -> ptr (hp s n) o = Some l ->
      match (if negb (is_open (hp s l)) then Some (crash s) else
        match m with
        | None => Some (modi (alloc (modi s l (set_fz (Orig n))) (leaf0 (ents (hp s l)) Open n)) n (set_jb (Swap0 o l (fresh s))))
        | Some m =>
            match get leb (ents (hp s l)) m, above leb m (ents (hp s l)) with
            | Some _, _ :: _ => Some (modi (alloc (alloc (modi s l (set_fz (Orig n))) (leaf0 (upto leb m (ents (hp s l))) (Hold n) n))
                (leaf0 (above leb m (ents (hp s l))) Open n)) n (set_jb (Split o l m (fresh s) (S (fresh s)))))
            | _, _ => None
            end
        end) with Some s' => SS s' nx d g' | None => True end) as Q.
  { intros l J L1 Hp. pose proof (locked_open leb HO _ _ _ _ HI FI n o l J L1 Hp) as Fo. destruct (G1 L1) as [Gn Gn'].
    assert (forall m, g' m = g m) as Es'. { intros q. destruct (Nat.eq_dec q n) as [->|]; auto. congruence. }
    unfold is_open. rewrite Fo. cbn [negb]. destruct m as [m|].
    - destruct (get leb (ents (hp s l)) m) as [v|] eqn:Gm; auto. destruct (above leb m (ents (hp s l))) as [|e0 r0] eqn:Ab; auto.
      rewrite <- Ab. assert (above leb m (ents (hp s l)) <> []) as Ab' by congruence.
      exact (sj_frz1 leb HO _ _ _ _ _ _ J0 _ HI FI n o l m v g' J L1 Hp Gn Es' Gm Ab').
    - exact (sj_frz0 leb HO _ _ _ _ _ _ J0 _ HI FI n o l g' J L1 Hp Gn Es'). }
  destruct (jb (hp s n)) eqn:J; destruct (ub (hp s n)) eqn:U; try discriminate;
    destruct (lvl (hp s n)) as [|[|ln]] eqn:L1; try discriminate;
    destruct (ptr (hp s n) o) as [l|] eqn:Hp; try discriminate;
    specialize (Q l eq_refl eq_refl eq_refl); revert H Q;
    match goal with |- ?a = _ -> match ?b with _ => _ end -> _ => change b with a; destruct a; [|discriminate] end;
    intros [= <-] Q; exact Q.
Qed.
Lemma ss_full n s' g' : step_sys leb (SFull n) s = Some s' -> (lvl (hp s n) = 1 -> g n = GLo) -> (forall m, g' m = g m) -> SS s' nx d g'.
Proof.
  intros H G Es. cbn [step_sys] in H. destruct (jb (hp s n)) as [| | | | |o c m low high| | | |] eqn:J; try discriminate. injection H as <-.
  pose proof (sj_full leb HO _ _ _ _ _ _ J0 _ HI FI n o c m low high g' J G Es) as Q. cbv zeta in Q.
  unfold SS. destruct (lvl (hp s n) =? 1); exact Q.
Qed.
Lemma ss_thaw n s' g' : step_sys leb (SThaw n) s = Some s' -> (lvl (hp s n) = 1 -> g n = GDel) -> (forall m, g' m = g m) -> SS s' nx d g'.
Proof.
  intros H G Es. cbn [step_sys] in H. destruct (jb (hp s n)) as [| | | | | |o c m low high [|]| | |] eqn:J; try discriminate. injection H as <-.
  exact (sj_thaw leb HO _ _ _ _ _ _ J0 _ HI FI n o c m low high g' J (G (f_thaw _ _ FI _ _ _ _ _ _ J)) Es).
Qed.
Lemma ss_commit n s' g' : step_sys leb (SCommit n) s = Some s' ->
  (forall c lo hi lns, jb (hp s n) = Commit c lo hi lns 0 -> lvl (hp s n) = 1 -> g n = GDel) -> (forall m, g' m = g m) -> SS s' nx d g'.
Proof.
  intros H G Es. cbn [step_sys] in H.
  destruct (jb (hp s n)) as [| | | | | | | |c low high lns i|] eqn:J; try discriminate.
  destruct (Nat.eqb_spec (lvl (hp s n)) 1) as [L1|L1].
  - destruct i as [|[|[|[|i]]]].
    + injection H as <-. pose proof (G _ _ _ _ eq_refl L1) as Gn.
      exact (sj_cthaw leb HO _ _ _ _ _ _ J0 _ HI FI n c low high lns 0 low g' L1 J (or_introl (conj eq_refl (conj eq_refl Gn))) Es).
    + injection H as <-. exact (sj_cthaw leb HO _ _ _ _ _ _ J0 _ HI FI n c low high lns 1 high g' L1 J (or_intror (conj eq_refl eq_refl)) Es).
    + destruct lns as [[a b]|]; injection H as <-.
      * exact (sj_cfree leb HO _ _ _ _ _ _ J0 _ HI FI n c low high a b 2 a g' L1 J (or_introl (conj eq_refl eq_refl)) Es).
      * refine (sj_cend leb HO _ _ _ _ _ _ J0 _ HI FI n c low high _ _ g' L1 J _ Es); lia.
    + destruct lns as [[a b]|]; injection H as <-.
      * exact (sj_cfree leb HO _ _ _ _ _ _ J0 _ HI FI n c low high a b 3 b g' L1 J (or_intror (conj eq_refl eq_refl)) Es).
      * refine (sj_cend leb HO _ _ _ _ _ _ J0 _ HI FI n c low high _ _ g' L1 J _ Es); lia.
    + destruct lns as [[a b]|]; injection H as <-;
        refine (sj_cend leb HO _ _ _ _ _ _ J0 _ HI FI n c low high _ _ g' L1 J _ Es); lia.
  - injection H as <-. pose proof (sj_commit2 leb HO _ _ _ _ _ _ J0 _ HI FI n c low high lns i g' L1 J Es) as Q. cbv zeta in Q.
    unfold SS, commit_child. cbn [hp modi put with_hp].
    destruct (jb (upd (hp s) n (set_jb Poison (hp s n)) c)); exact Q.
Qed.
Lemma ss_roll n s' g' o c m lo hi tk lns : jb (hp s n) = Full o c m lo hi tk lns -> step_sys leb (SRoll n) s = Some s' ->
  (lvl (hp s n) = 1 -> g n = GRb2 /\ g' n = GUm c) -> (lvl (hp s n) <> 1 -> g' n = g n) -> (forall m, m <> n -> g' m = g m) -> SS s' nx d g'.
Proof.
  intros J H G1 G2 Es. cbn [step_sys] in H. rewrite J in H. destruct tk as [tk|]; [discriminate|].
  destruct (Nat.eq_dec (lvl (hp s n)) 1) as [L1|L1].
  - destruct (G1 L1) as [Gn Gn'].
    pose proof (sj_roll1 leb HO _ _ _ _ _ _ J0 _ HI FI n o c m lo hi lns g' L1 J Gn Gn' Es) as Q. cbv zeta in Q. revert H.
    cbn [hp modi put with_hp]. unfold SS. destruct (lvl _ =? 1).
    + intros [= <-]. exact Q.
    + destruct (jb (upd (hp s) n (set_jb Locked (hp s n)) c)); intros [= <-]; exact Q.
  - assert (forall m, g' m = g m) as Es'. { intros q. destruct (Nat.eq_dec q n) as [->|]; auto. }
    pose proof (sj_roll2 leb HO _ _ _ _ _ _ J0 _ HI FI n o c m lo hi lns g' L1 J Es') as Q. cbv zeta in Q. revert H.
    cbn [hp modi put with_hp]. unfold SS. destruct (lvl _ =? 1).
    + intros [= <-]. exact Q.
    + destruct (jb (upd (hp s) n (set_jb Locked (hp s n)) c)); intros [= <-]; exact Q.
Qed.
Lemma ss_rem n j s' g' : step_sys leb (SRem n j) s = Some s' -> (lvl (hp s n) = 1 -> g n = GRet (PSlot j)) -> g' n = G0 ->
  (forall m, m <> n -> g' m = g m) -> SS s' nx d g'.
Proof.
  intros H G1 G2 Es. cbn [step_sys] in H.
  destruct (jb (hp s n)) eqn:J; try discriminate. destruct (slot_child (cells (hp s n)) j) as [c|] eqn:Hs; [|discriminate].
  destruct (retired (hp s c)) eqn:R; [|discriminate]. injection H as <-.
  exact (sj_rem leb HO _ _ _ _ _ _ J0 _ HI FI n j c g' J Hs R G1 G2 Es).
Qed.
Lemma ss_ret n s' g' : step_sys leb (SRet n) s = Some s' -> (lvl (hp s n) = 1 -> g n = GRet PUb) -> g' n = G0 ->
  (forall m, m <> n -> g' m = g m) -> SS s' nx d g'.
Proof.
  intros H G1 G2 Es. cbn [step_sys] in H.
  destruct (jb (hp s n)) eqn:J; try discriminate. destruct (cells (hp s n)) eqn:Hcs; [|discriminate].
  destruct (ub (hp s n)) as [| |c] eqn:U; try discriminate.
  destruct (retired (hp s c)) eqn:R; [|discriminate]. injection H as <-.
  exact (sj_ret leb HO _ _ _ _ _ _ J0 _ HI FI n c g' J U Hcs R G1 G2 Es).
Qed.
Lemma ss_none n s' g' : root s = Some n -> step_sys leb SRNone s = Some s' -> (lvl (hp s n) = 1 -> g n = G0) -> (forall m, g' m = g m) -> SS s' nx d g'.
Proof.
  intros Rt H G Es. cbn [step_sys] in H. rewrite Rt in H. destruct (jb (hp s n)) eqn:J; try discriminate.
  destruct (ub (hp s n)) as [| |c] eqn:U; try discriminate. injection H as <-.
  refine (sj_none leb HO _ _ _ _ _ _ J0 _ HI FI n _ g' Rt J U _ G Es). destruct (lvl (hp s n)) as [|[|]]; auto.
Qed.

(** Steps of the calls. *)
Lemma ss_op_load t p x M s' : ops s t = Some p -> pc p = PMeta x M -> step_op leb (ALoad t) s t p = Some s' -> SS s' nx d g.
Proof.
  intros E P H. cbn [step_op] in H. rewrite P in H. pose proof (i_op leb s I t p E) as OO.
  pose proof (o_pc _ _ _ _ _ _ OO) as Q. unfold at_pcs in Q. rewrite P in Q. destruct Q as [[Lx Gx] Mx].
  pose proof (good_lt leb _ _ _ _ HI FI _ _ _ Gx) as Hx. pose proof (h_wf _ _ _ _ _ HI x Hx) as W.
  destruct (route leb (fst M) (okey (kind p))) as [j|] eqn:Ro.
  - destruct (slot_child (cells (hp s x)) j) as [c|] eqn:Sc; injection H as <-; exact J0.
  - destruct (ub (hp s x)) as [| |c] eqn:U.
    + destruct (kind p) as [a|a b|a cond] eqn:Ek; try (injection H as <-; exact J0).
      destruct (Nat.eqb_spec (lvl (hp s x)) 1) as [L1|L1]; injection H as <-; [|exact J0].
      assert (~ closed (hp s x)) as Nc.
      { intros [C|C]; [destruct (w_over1 _ _ _ _ W C Lx) as [[u Hu] _]; congruence|].
        unfold retired in C. now rewrite L1, U in C. }
      assert (On leb (hp s) (root s) (okey_ p) x) as Ox by (destruct Gx; tauto).
      assert (Live leb (hp s) (root s) x) as Lv by (eexists; eauto).
      exact (sj_newleaf leb _ _ _ _ _ _ J0 _ HI FI x 0 Lv L1 U).
    + destruct (kind p) as [a|a b|a cond] eqn:Ek; injection H as <-; exact J0.
    + injection H as <-. exact J0.
Qed.

Lemma ss_inst t p s' : pc p = PStart -> step_op leb (AInst t) s t p = Some s' -> SS s' nx d g.
Proof.
  intros P H. cbn [step_op] in H. rewrite P in H. destruct (kind p) as [a|a b|a cond] eqn:Ek; try discriminate.
  destruct (root s) as [n|] eqn:R; [discriminate|]. injection H as <-.
  exact (sj_inst leb HO _ _ _ _ _ _ J0 _ HI FI 0 g R (fun _ => eq_refl)).
Qed.
Lemma ss_leaf t p l full s' : ops s t = Some p -> pc p = PLeaf l -> step_op leb (ALeaf t full) s t p = Some s' -> SS s' nx d g.
Proof.
  intros E P H. cbn [step_op] in H. rewrite P in H. pose proof (i_op leb s I t p E) as OO.
  pose proof (o_pc _ _ _ _ _ _ OO) as Q. unfold at_pcs in Q. rewrite P in Q. destruct Q as [L0 G].
  pose proof (good_lt leb _ _ _ _ HI FI _ _ _ G) as Hl. pose proof (h_wf _ _ _ _ _ HI l Hl) as W.
  assert (fz (hp s l) = Open -> ret (hp s l) = false -> On leb (hp s) (root s) (okey_ p) l) as Ol.
  { intros Fo Rt. destruct G as [y H0|y C L S0|y C L N S0|y z C L N G0]; auto; try tauto. exfalso. destruct C as [C|C].
    - destruct (w_over0 _ _ _ _ W C L0). congruence.
    - unfold retired in C. rewrite L0 in C. congruence. }
  pose proof (q_nd _ _ _ _ _ _ _ _ (s_l _ _ _ _ _ _ _ J0) l) as Nd.
  destruct (kind p) as [a|a v|a cond] eqn:Ek.
  - injection H as <-. exact J0.
  - assert (okey_ p = a) as Ka by (unfold okey_; now rewrite Ek). cbn [okey] in H.
    destruct (ret (hp s l)) eqn:Rt; [injection H as <-; exact J0|]. cbn [orb] in H. unfold is_open in H.
    destruct (fz (hp s l)) eqn:Fo; cbn [negb] in H; try (injection H as <-; exact J0).
    destruct (get leb (ents (hp s l)) a) as [w|] eqn:Gt; [injection H as <-; exact J0|].
    destruct full; injection H as <-; [exact J0|].
    refine (sj_write leb HO _ _ _ _ _ _ J0 _ HI FI l (okey_ p) _ false (Ol eq_refl eq_refl) L0 Fo Rt _ _).
    + intros e [<-|He]; auto.
    + cbn. constructor; auto. intros Hi. apply in_map_iff in Hi as (e & Ee & He).
      apply (in_get leb HO) in He; auto. rewrite Ee in He. congruence.
  - assert (okey_ p = a) as Ka by (unfold okey_; now rewrite Ek). cbn [okey] in H. unfold is_open in H.
    destruct (fz (hp s l)) eqn:Fo; cbn [negb] in H; try (injection H as <-; exact J0).
    destruct (get leb (ents (hp s l)) a) as [w|] eqn:Gt; [|injection H as <-; exact J0].
    destruct (cond w); [|injection H as <-; exact J0].
    assert (ret (hp s l) = false) as Rt. { destruct (ret (hp s l)) eqn:Rt; auto. rewrite (w_ret _ _ _ _ W) in Gt by auto. discriminate. }
    pose proof (fun b A B => sj_write leb HO _ _ _ _ _ _ J0 _ HI FI l (okey_ p) (del leb (ents (hp s l)) a) b (Ol eq_refl Rt) L0 Fo Rt A B) as Q.
    assert (forall e, In e (del leb (ents (hp s l)) a) -> In e (ents (hp s l)) \/ fst e = okey_ p) as A.
    { intros e He. left. unfold del in He. now apply filter_In in He. }
    assert (NoDup (map fst (del leb (ents (hp s l)) a))) as B. { unfold del. now apply filter_nd. }
    destruct (del leb (ents (hp s l)) a) eqn:D; injection H as <-; exact (Q _ A B).
Qed.
Lemma ss_op t p a s' : ops s t = Some p -> step_op leb a s t p = Some s' -> SS s' nx d g.
Proof.
  intros E Hs. pose proof Hs as H.
  destruct a; try discriminate H; destruct (pc p) as [| |y|y M|y M c|y| |] eqn:P; cbn [step_op] in H; try rewrite P in H; try discriminate H.
  - destruct (root s); [injection H as <-; exact J0|]. destruct (kind p); try discriminate; injection H as <-; exact J0.
  - destruct (kind p) as [k|k v|k c] eqn:Ek; try discriminate H. destruct (root s) as [n|] eqn:R; [discriminate|]. injection H as <-.
    exact (sj_inst leb HO _ _ _ _ _ _ J0 _ HI FI 0 g R (fun _ => eq_refl)).
  - injection H as <-. exact J0.
  - refine (ss_op_load t p y M s' E P _). cbn [step_op]. rewrite P. exact H.
  - destruct (meta_eqb _ _ _); [destruct (_ =? 1)|]; injection H as <-; exact J0.
  - refine (ss_leaf t p y full s' E P _). cbn [step_op]. rewrite P. exact H.
  - destruct (kind p); try discriminate; injection H as <-; exact J0.
  - destruct (existsb _ _); [|discriminate]. injection H as <-; exact J0.
  - injection H as <-. exact J0.
  - destruct (root s); [|discriminate]. destruct (_ && _); [|discriminate]. injection H as <-. exact J0.
Qed.
End one.

Lemma lvl_take (s : st K V) n o b s' m : take s n o b = Some s' -> m < fresh s -> lvl (hp s' m) = lvl (hp s m).
Proof.
  intros H Hm. unfold take in H.
  destruct (jb (hp s n)) eqn:J; try discriminate. destruct (ptr (hp s n) o) as [c|] eqn:Hp; [|discriminate].
  destruct (lvl (hp s c)) as [|lc] eqn:Lc; [discriminate|].
  destruct (jb (hp s c)) as [| | | | | | |o1 c1 m1 lo1 hi1 [tk|] lns1| |] eqn:Jc; try discriminate.
  destruct (build (hp s c) o1 m1 lo1 hi1 b n) as [[[mid xl] xh]|] eqn:Hb; [|discriminate].
  injection H as <-. cbn. unfold upd.
  repeat match goal with |- context [?a =? ?b] => destruct (Nat.eqb_spec a b); subst; cbn end; auto; lia.
Qed.
Lemma lvl_ins (s : st K V) n s' m : ins_low leb s n = Some s' -> lvl (hp s' m) = lvl (hp s m).
Proof.
  intros H. unfold ins_low in H. destruct (jb (hp s n)) as [| | | | |o c mm low high| | | |] eqn:J; try discriminate.
  destruct (has_key _ _ _); injection H as <-; auto. cbn. unfold upd.
  repeat match goal with |- context [?a =? ?b] => destruct (Nat.eqb_spec a b); subst; cbn end; destruct (inch _ _ _ _); auto.
Qed.
Lemma ss_split (s : st K V) nx d g b s' g' : Inv s -> SS s nx d g -> step_sys leb (SRSplit b) s = Some s' ->
  (forall r, root s = Some r -> lvl (hp s r) = 1 -> g r = GLo) -> (forall m, g' m = g m) -> SS s' nx d g'.
Proof.
  intros I J0 H G Es. cbn [step_sys] in H. pose proof (i_k leb s I) as HK.
  destruct (root s) as [n|] eqn:Rt; [|discriminate].
  destruct (jb (hp s n)) as [| | | | | | |o c m low high [tk|] lns| |] eqn:J; try discriminate. revert H.
  destruct HK as [k]; [discriminate|].
  assert (Live leb (hp s) (Some n) n) as Lv by (exists k; now constructor).
  destruct (h_root _ _ _ _ _ (i_h leb s I) n Rt) as (Hn & Ln & _).
  set (s1 := with_root _ _). assert (Inv s1) as I1.
  { refine (inv_sys leb s _ _ _ I _ (fun _ => inhabits k)). rewrite Rt. pose proof (i_h leb s I) as HI. pose proof (i_f leb s I) as FI. rewrite Rt in HI. exact (ok_top leb _ _ _ _ HI FI n 0 eq_refl Lv). }
  assert (SS s1 nx d g') as S1.
  { refine (sj_top leb HO _ _ _ _ _ _ J0 _ (i_h leb s I) (i_f leb s I) n 0 g' Rt _ _ Es).
    - rewrite Rt. exact Lv.
    - intros U. pose proof (l_ptr _ _ _ _ _ _ _ _ _ (h_hld _ _ _ _ _ (i_h leb s I) n o c (Some m) low high Hn ltac:(now rewrite J))) as Pp.
      pose proof (h_wf _ _ _ _ _ (i_h leb s I) n Hn) as W. assert (cells (hp s n) = []) as Cn by (apply (w_ub _ _ _ _ W); congruence).
      destruct o as [j|]; cbn in Pp; rewrite ?Cn, ?U in Pp; discriminate. }
  assert (hp s1 (fresh s) = node0 (S (lvl (hp s n))) [] 0 (UTo n) Locked 0) as A1 by (cbn; now rewrite upd_eq).
  assert (lvl (hp s1 (fresh s)) <> 1) as L1. { rewrite A1. change (S (lvl (hp s n)) <> 1). lia. }
  assert (hp s1 n = hp s n) as A2 by (cbn; rewrite upd_ne by lia; auto).
  destruct (take s1 (fresh s) PUb b) as [s2|] eqn:E2; [|discriminate]. cbn [bind].
  pose proof (inv_take leb HO _ _ _ _ _ I1 E2) as I2.
  assert (SS s2 nx d g') as S2.
  { refine (ss_take s1 I1 _ _ _ S1 _ _ _ _ _ E2 _ (fun _ => eq_refl)). intros c' Hc Lc. rewrite A1 in Hc. injection Hc as <-.
    rewrite Es. apply G; auto. now rewrite A2 in Lc. }
  assert (lvl (hp s2 (fresh s)) <> 1) as L2. { rewrite (lvl_take _ _ _ _ _ _ E2); auto. }
  destruct (ins_low leb s2 (fresh s)) as [s3|] eqn:E3; [|discriminate]. cbn [bind].
  pose proof (inv_ins leb HO _ _ _ I2 E3) as I3.
  assert (SS s3 nx d g') as S3 by (refine (ss_ins s2 I2 _ _ _ S2 _ _ _ E3 _ (fun _ => eq_refl)); tauto).
  assert (lvl (hp s3 (fresh s)) <> 1) as L3 by (rewrite (lvl_ins _ _ _ _ E3); auto).
  rewrite (i_err leb s3 I3). intros H. refine (ss_swap s3 I3 _ _ _ S3 _ _ _ H _ _ (fun _ _ => eq_refl)); [tauto|].
  now apply (ss_g0 s3 _ _ _ S3).
Qed.

(** ** The layer *)
Definition SI (s : ls K V) : Prop := Inv (tc s) /\ SS (tc s) (link s) (dl s) (sg s).
Lemma need_same (s : ls K V) n g0 t s' : need s n g0 g0 t = Some s' -> exists g1,
  s' = Ls t (link s) (dl s) (mk s) g1 (its s) /\ (forall m, g1 m = sg s m) /\ (lvl (hp (tc s) n) = 1 -> sg s n = g0 /\ g1 n = g0).
Proof.
  intros H. apply need_inv in H as (g1 & E & A & B & C). exists g1. split; auto. split; [|tauto].
  intros m. destruct (Nat.eq_dec m n) as [->|]; auto. destruct (Nat.eq_dec (lvl (hp (tc s) n)) 1) as [L|L]; auto.
  destruct (B L). congruence.
Qed.
Lemma si_t a s s' : SI s -> tstep leb a s = Some s' -> SI s'.
Proof.
  intros [I J0] H. unfold tstep in H. destruct (step leb a (tc s)) as [t|] eqn:E; [|discriminate].
  pose proof (inv_step leb HO _ _ _ I E) as I'.
  assert (SS t (link s) (dl s) (sg s) -> s' = with_tc s t -> SI s') as Q by (intros Q ->; split; auto).
  unfold step in E. destruct (err (tc s)) eqn:Er; [discriminate|].
  destruct a; cbn [actor] in E;
    try (destruct (ops (tc s) t0) as [p|] eqn:Ep; [|discriminate]; injection H as <-; apply Q; auto; eapply (ss_op (tc s) I); eauto; fail);
    try (injection H as <-; apply Q; auto; eapply (ss_plain (tc s) I); eauto; reflexivity).
  - (* AInv *) destruct (ops (tc s) t0); [discriminate|]. injection E as <-. injection H as <-. apply Q; auto.
  - (* SUnlock *) apply need_same in H as (g1 & -> & A & B). split; auto. refine (ss_unlock _ I _ _ _ J0 _ _ _ E _ _ _); auto.
  - apply need_same in H as (g1 & -> & A & B). split; auto. refine (ss_frz _ I _ _ _ J0 _ _ _ _ _ E _ _); auto.
  - apply need_same in H as (g1 & -> & A & B). split; auto. refine (ss_ins _ I _ _ _ J0 _ _ _ E _ _); auto. tauto.
  - apply need_same in H as (g1 & -> & A & B). split; auto. refine (ss_full _ I _ _ _ J0 _ _ _ E _ _); auto. tauto.
  - apply need_same in H as (g1 & -> & A & B). split; auto. refine (ss_thaw _ I _ _ _ J0 _ _ _ E _ _); auto. tauto.
  - apply need_inv in H as (g1 & -> & A & B & C). split; auto. refine (ss_swap _ I _ _ _ J0 _ _ _ E _ _ A); [tauto|].
    cbn. destruct (Nat.eq_dec (lvl (hp (tc s) n)) 1) as [L|L]; [tauto|]. rewrite C by auto. now apply (ss_g0 _ _ _ _ J0).
  - destruct (ptr (nd s n) o) as [c|] eqn:Hp; [|discriminate]. destruct (settled s c) eqn:St; [|discriminate].
    apply need_same in H as (g1 & -> & A & B). split; auto. refine (ss_take _ I _ _ _ J0 _ _ _ _ _ E _ A).
    intros c' Hc' Lc. unfold nd in Hp. rewrite Hp in Hc'. injection Hc' as <-. unfold settled, is1, nd in St. rewrite Lc in St. cbn in St.
    now apply is_g_eq.
  - destruct (jb (nd s n)) as [| | | | | | | |c low high lns i|] eqn:J;
      try (cbn [step_sys] in E; unfold nd in J; rewrite J in E; discriminate).
    destruct i.
    + apply need_same in H as (g1 & -> & A & B). split; auto. refine (ss_commit _ I _ _ _ J0 _ _ _ E _ A). tauto.
    + injection H as <-. apply Q; auto. refine (ss_commit _ I _ _ _ J0 _ _ _ E _ _); auto. intros. unfold nd in J. congruence.
  - destruct (jb (nd s n)) as [| | | | | | |o c m low high tk lns| |] eqn:J; try discriminate.
    apply need_inv in H as (g1 & -> & A & B & C). split; auto. refine (ss_roll _ I _ _ _ J0 _ _ _ o c m low high tk lns J E B C A).
  - apply need_inv in H as (g1 & -> & A & B & C). split; auto. refine (ss_rem _ I _ _ _ J0 _ _ _ _ E _ _ A); [tauto|].
    cbn. destruct (Nat.eq_dec (lvl (hp (tc s) n)) 1) as [L|L]; [tauto|]. rewrite C by auto. now apply (ss_g0 _ _ _ _ J0).
  - apply need_inv in H as (g1 & -> & A & B & C). split; auto. refine (ss_ret _ I _ _ _ J0 _ _ _ E _ _ A); [tauto|].
    cbn. destruct (Nat.eq_dec (lvl (hp (tc s) n)) 1) as [L|L]; [tauto|]. rewrite C by auto. now apply (ss_g0 _ _ _ _ J0).
  - destruct (root (tc s)) as [r|] eqn:Rt; [|discriminate]. destruct (settled s r) eqn:St; [|discriminate]. injection H as <-.
    apply Q; auto. refine (ss_split _ _ _ _ _ _ _ I J0 E _ (fun _ => eq_refl)). intros r' Hr Lr. rewrite Rt in Hr. injection Hr as <-.
    unfold settled, is1, nd in St. rewrite Lr in St. cbn in St. now apply is_g_eq.
  - destruct (root (tc s)) as [r|] eqn:Rt; [|discriminate].
    apply need_same in H as (g1 & -> & A & B). split; auto. refine (ss_none _ I _ _ _ J0 _ _ _ Rt E _ A). tauto.
Qed.
Lemma si_l a s s' : SI s -> lstep a s = Some s' -> SI s'.
Proof.
  intros [I S0] H. destruct a; cbn [lstep] in H; unfold is1, nd in H.
  - destruct (Nat.eqb_spec (lvl (hp (tc s) n)) 1) as [L|]; [|discriminate].
    destruct (jb (hp (tc s) n)) as [| | | | |o c m low high| | | |] eqn:J; try discriminate.
    destruct (sg s n) eqn:G; try discriminate. injection H as <-. split; auto.
    refine (sj_push1 leb _ _ _ _ _ _ S0 n o c (Some m) low high GHi L _ G _ _); rewrite ?J; auto.
    + rewrite L. cbn. auto.
    + left. split; auto. pose proof (locked_lt leb _ _ _ _ (i_h leb _ I) (i_f leb _ I) n) as [Hn _]; [congruence|].
      refine (l_neq _ _ _ _ _ _ _ _ _ (h_hld _ _ _ _ _ (i_h leb _ I) n o c (Some m) low high Hn _) _); [now rewrite J|discriminate].
  - destruct (Nat.eqb_spec (lvl (hp (tc s) n)) 1) as [L|]; [|discriminate].
    destruct (jb (hp (tc s) n)) as [| | | |o c low|o c m low high| | | |] eqn:J; try discriminate;
    destruct (sg s n) eqn:G; try discriminate; injection H as <-; split; auto.
    + refine (sj_push1 leb _ _ _ _ _ _ S0 n o c None low low GLo L _ G _ _); rewrite ?J; auto. rewrite L. cbn. auto.
    + refine (sj_push2 leb _ _ _ _ _ _ S0 n o c (Some m) low high L _ G _); rewrite ?J; auto. rewrite L. cbn. auto.
  - destruct (Nat.eqb_spec (lvl (hp (tc s) n)) 1) as [L|]; [|discriminate].
    destruct (jb (hp (tc s) n)) as [| | | |o c low| |o c m low high [|]| |c low high lns [|i]|] eqn:J; try discriminate;
    destruct (sg s n) eqn:G; try discriminate; injection H as <-; split; auto.
    + refine (sj_delo leb _ _ _ _ _ _ S0 _ (i_h leb _ I) (i_f leb _ I) n o c None low low L _ G _); rewrite ?J; auto. rewrite L. cbn. auto.
    + refine (sj_delo leb _ _ _ _ _ _ S0 _ (i_h leb _ I) (i_f leb _ I) n o c (Some m) low high L _ G _); rewrite ?J; auto. rewrite L. cbn. auto.
    + exact (sj_delc leb HO _ _ _ _ _ _ S0 _ (i_h leb _ I) (i_f leb _ I) n c low high lns L J G).
  - destruct (Nat.eqb_spec (lvl (hp (tc s) n)) 1) as [L|]; [|discriminate].
    destruct (jb (hp (tc s) n)) as [| | | | | | |o c m low high [tk|] lns| |] eqn:J; try discriminate.
    destruct (sg s n) eqn:G; try discriminate. injection H as <-. split; auto.
    exact (sj_rbhi leb HO _ _ _ _ _ _ S0 _ (i_h leb _ I) (i_f leb _ I) n o c m low high lns L J G).
  - destruct (Nat.eqb_spec (lvl (hp (tc s) n)) 1) as [L|]; [|discriminate].
    destruct (jb (hp (tc s) n)) as [| | | | | | |o c m low high [tk|] lns| |] eqn:J; try discriminate.
    destruct (sg s n) eqn:G; try discriminate. injection H as <-. split; auto.
    exact (sj_rblo leb HO _ _ _ _ _ _ S0 _ (i_h leb _ I) (i_f leb _ I) n o c m low high lns L J G).
  - destruct (sg s n) eqn:G; try discriminate. injection H as <-. split; auto. exact (sj_unm leb _ _ _ _ _ _ S0 n c G).
  - destruct (Nat.eqb_spec (lvl (hp (tc s) n)) 1) as [L|]; [|discriminate].
    destruct (jb (hp (tc s) n)) eqn:J; try discriminate. destruct (sg s n) eqn:G; try discriminate.
    destruct (ptr (hp (tc s) n) o) as [c|] eqn:Hp; [|discriminate]. destruct (_ && _) eqn:R; [|discriminate]. injection H as <-.
    apply andb_true_iff in R as [R _]. split; auto.
    exact (sj_delr leb HO _ _ _ _ _ _ S0 _ (i_h leb _ I) (i_f leb _ I) n o c L J G Hp R).
Qed.
Lemma si_step a s s' : SI s -> lsstep leb a s = Some s' -> SI s'.
Proof.
  intros S0 H. destruct a as [a|a|[i|i]]; cbn [lsstep] in H.
  - eapply si_t; eauto.
  - eapply si_l; eauto.
  - destruct (its s i); [discriminate|]. injection H as <-. exact S0.
  - destruct (its s i); [|discriminate]. injection H as <-. exact S0.
Qed.
Lemma si_run l : forall s s', SI s -> lsrun leb l s = Some s' -> SI s'.
Proof.
  induction l as [|a l IH]; intros s s' I H; cbn in H; [congruence|].
  destruct (lsstep leb a s) as [s1|] eqn:E; [|discriminate]. eapply IH; [|eauto]. eapply si_step; eauto.
Qed.
Lemma si_init : SI linit.
Proof.
  split; [apply inv_init|]. unfold SS. cbn.
  assert (forall k y, ~ On leb (fun _ => blank : obj K V) (@None nat) k y) as No.
  { intros k y O. apply on_root_ex in O as [? O]. discriminate. }
  constructor; cbn; try discriminate; auto; try lia; try (intros; exfalso; eapply No; eauto; fail).
  constructor; cbn; try discriminate; auto; try lia; try tauto; try (intros; exfalso; eapply No; eauto; fail).
  - intros. constructor.
  - intros a H. inversion H; discriminate.
Qed.
End sys.
