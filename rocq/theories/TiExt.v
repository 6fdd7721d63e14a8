(** What one step of the tree does, as far as iterators see it. *)
From Coq Require Import List Arith Bool Lia.
From Verif Require Import TcModel TcRoute TcSpec TcInv TcTree TcFrame TcJobs TcFz TcFzs TcExt TcSys TcOps TcRun.
Import ListNotations.

Section run.
Context {K V : Type} (leb : K -> K -> bool) (HO : tord leb).
Notation heap := (nat -> obj K V).
Notation hist := (list (ev K V)).
Notation st := (st K V).
Notation op := (op K V).
Notation Inv := (Inv leb).
Implicit Types (h : heap) (lg : hist) (s : st) (p : op) (t x : nat) (r : option nat).

Definition X s s' : Prop := Ext leb (hp s) (fresh s) (root s) (hp s') (fresh s') (root s').
Lemma xo {A B C : Prop} : A /\ B /\ C -> C.
Proof. tauto. Qed.
Lemma x_refl s s' : hp s' = hp s -> fresh s' = fresh s -> root s' = root s -> X s s'.
Proof. intros A B C. unfold X. rewrite A, B, C. constructor; auto. intros y _ D. split; auto. repeat split. Qed.
Definition Sm s s1 : Prop := forall y, y < fresh s -> same (hp s1 y) (hp s y).
Lemma same_trans (a b c : obj K V) : same a b -> same b c -> same a c.
Proof. intros (E1 & E2 & E3 & E4) (F1 & F2 & F3 & F4). repeat split; congruence. Qed.
Lemma x_trans s s1 s' : Inv s -> X s s1 -> Sm s s1 -> X s1 s' -> X s s'.
Proof.
  intros I [A1 A2 A3 A4 A5] S [B1 B2 B3 B4 B5].
  assert (forall y, y < fresh s -> y < fresh s1) as Lt by (intros; lia).
  constructor.
  - lia.
  - intros y Hy. rewrite B2, A2; auto.
  - intros k y H. pose proof (on_lt leb _ _ _ _ (i_h leb s I) _ _ H) as Hy. destruct (A3 k y H) as [H1|[C1 S1]].
    + destruct (B3 k y H1) as [H2|[C2 S2]]; auto. right. split; auto. eapply same_trans; eauto.
    + destruct (B4 y (Lt y Hy) C1) as [C2 S2]. right. split; auto. eapply same_trans; eauto.
  - intros y Hy C. destruct (A4 y Hy C) as [C1 S1]. destruct (B4 y (Lt y Hy) C1) as [C2 S2]. split; auto. eapply same_trans; eauto.
  - intros y Hy. destruct (A5 y Hy) as [E|E]; destruct (B5 y (Lt y Hy)) as [E'|E']; [left; congruence| | |]; right; [rewrite <- E|rewrite E'|]; lia.
Qed.
Ltac eqs := repeat match goal with |- context [?a =? ?b] => destruct (Nat.eqb_spec a b); subst; cbn end.
Lemma sm_take s n o b s' y : take s n o b = Some s' -> y < fresh s -> same (hp s' y) (hp s y).
Proof.
  intros H Hm. unfold take in H.
  destruct (jb (hp s n)) eqn:J; try discriminate. destruct (ptr (hp s n) o) as [c|] eqn:Hp; [|discriminate].
  destruct (lvl (hp s c)) as [|lc] eqn:Lc; [discriminate|].
  destruct (jb (hp s c)) as [| | | | | | |o1 c1 m1 lo1 hi1 [tk|] lns1| |] eqn:Jc; try discriminate.
  destruct (build (hp s c) o1 m1 lo1 hi1 b n) as [[[mid xl] xh]|] eqn:Hb; [|discriminate].
  injection H as <-. cbn. unfold upd. eqs; try lia; repeat split.
Qed.
Lemma sm_ins s n s' y : ins_low leb s n = Some s' -> y <> n -> same (hp s' y) (hp s y).
Proof.
  intros H N. unfold ins_low in H. destruct (jb (hp s n)) as [| | | | |o c mm low high| | | |] eqn:J; try discriminate.
  destruct (has_key _ _ _); injection H as <-; [repeat split|]. cbn. unfold upd. eqs; try tauto. destruct (inch _ _ _ _); repeat split.
Qed.

Lemma x_take s n o b s' : Inv s -> take s n o b = Some s' -> X s s'.
Proof.
  intros I H. unfold take in H.
  destruct (jb (hp s n)) eqn:J; try discriminate. destruct (ptr (hp s n) o) as [c|] eqn:Hp; [|discriminate].
  destruct (lvl (hp s c)) as [|lc] eqn:Lc; [discriminate|].
  destruct (jb (hp s c)) as [| | | | | | |o1 c1 m1 lo1 hi1 [tk|] lns1| |] eqn:Jc; try discriminate.
  destruct (build (hp s c) o1 m1 lo1 hi1 b n) as [[[mid xl] xh]|] eqn:Hb; [|discriminate].
  injection H as <-.
  assert (lvl (hp s c) <> 0) as Lc' by congruence.
  pose proof (ok_take leb HO _ _ _ _ (i_h leb s I) (i_f leb s I) n c o o1 c1 m1 lo1 hi1 lns1 _ b mid xl xh J Hp Lc' Jc Hb eq_refl) as Q.
  rewrite Lc in Q. exact (xo Q).
Qed.
Lemma x_ins s n s' : Inv s -> ins_low leb s n = Some s' -> X s s'.
Proof.
  intros I H. unfold ins_low in H. destruct (jb (hp s n)) as [| | | | |o c m low high| | | |] eqn:J; try discriminate.
  destruct (ok_ins leb HO _ _ _ _ (i_h leb s I) (i_f leb s I) n o c m low high J) as [Q Hk]. rewrite Hk in H. injection H as <-.
  exact (xo Q).
Qed.
Lemma x_swap s n s' : Inv s -> swap_high s n = Some s' -> X s s'.
Proof.
  intros I H. unfold swap_high in H.
  destruct (jb (hp s n)) as [| | | |o c low| |o c m low high [|]| | |] eqn:J; try discriminate; injection H as <-.
  - pose proof (ok_swap0 leb HO _ _ _ _ (i_h leb s I) (i_f leb s I) n o c low J) as Q.
    exact (xo Q).
  - pose proof (ok_swap leb HO _ _ _ _ (i_h leb s I) (i_f leb s I) n o c m low high J) as Q.
    unfold commit_child. cbv zeta in Q. destruct (jb (hp s c)) eqn:Jc; exact (xo Q).
Qed.

Lemma x_sys a s s' : Inv s -> step_sys leb a s = Some s' -> X s s'.
Proof.
  intros I H. pose proof (i_h leb s I) as HI. pose proof (i_f leb s I) as FI. pose proof (i_k leb s I) as HK.
  destruct a; try discriminate; cbn [step_sys] in H.
  - (* SLock *)
    destruct (lvl (hp s n)) as [|ln] eqn:L; [discriminate|]. destruct (jb (hp s n)) eqn:J; try discriminate.
    destruct (_ || _) eqn:D; [|discriminate]. injection H as <-.
    assert (n < fresh s /\ (Live leb (hp s) (root s) n \/ ub (hp s n) = URet)) as [Hn Lv].
    { apply orb_true_iff in D as [D|D].
      - destruct (ops s t) as [p|] eqn:E; [|discriminate]. apply existsb_exists in D as (y & Hy & Ey).
        apply Nat.eqb_eq in Ey. subst y. apply (near_live leb s p n I); auto. apply (o_vis _ _ _ _ _ _ (i_op leb s I t p E)). auto.
      - destruct (root s) as [q|] eqn:R; [|discriminate]. apply Nat.eqb_eq in D. subst q.
        destruct (h_root _ _ _ _ _ HI n eq_refl) as (Hn & _). split; auto. left.
        destruct HK as [k]; [discriminate|]. exists k. now constructor. }
    assert (lvl (hp s n) <> 0) as L' by congruence.
    exact (xo (ok_lock leb HO _ _ _ _ HI FI n Hn L' J Lv)).
  - (* SUnlock *)
    destruct (jb (hp s n)) eqn:J; try discriminate. injection H as <-.
    exact (xo (ok_unlock leb HO _ _ _ _ HI FI n J)).
  - (* SFrz *)
    assert (forall l, jb (hp s n) = Locked -> lvl (hp s n) = 1 -> ptr (hp s n) o = Some l ->
      match (if negb (is_open (hp s l)) then Some (crash s) else
        match m with
        | None => Some (modi (alloc (modi s l (set_fz (Orig n))) (leaf0 (ents (hp s l)) Open n)) n (set_jb (Swap0 o l (fresh s))))
        | Some m =>
            match get leb (ents (hp s l)) m, above leb m (ents (hp s l)) with
            | Some _, _ :: _ => Some (modi (alloc (alloc (modi s l (set_fz (Orig n))) (leaf0 (upto leb m (ents (hp s l))) (Hold n) n))
                (leaf0 (above leb m (ents (hp s l))) Open n)) n (set_jb (Split o l m (fresh s) (S (fresh s)))))
            | _, _ => None
            end
        end) with Some s' => X s s' | None => True end) as Q.
    { intros l J L1 Hp. pose proof (locked_open leb HO _ _ _ _ HI FI n o l J L1 Hp) as Fo.
      unfold is_open. rewrite Fo. cbn [negb]. destruct m as [m|].
      - destruct (get leb (ents (hp s l)) m) as [v|] eqn:Gm; auto. destruct (above leb m (ents (hp s l))) as [|e0 r0] eqn:Ab; auto.
        rewrite <- Ab. assert (above leb m (ents (hp s l)) <> []) as Ab' by congruence.
        exact (xo (ok_frz1 leb HO _ _ _ _ HI FI n o l m v J L1 Hp Gm Ab')).
      - exact (xo (ok_frz0 leb HO _ _ _ _ HI FI n o l J L1 Hp)). }
    destruct (jb (hp s n)) eqn:J; destruct (ub (hp s n)) eqn:U; try discriminate;
      destruct (lvl (hp s n)) as [|[|ln]] eqn:L1; try discriminate;
      destruct (ptr (hp s n) o) as [l|] eqn:Hp; try discriminate;
      specialize (Q l eq_refl eq_refl eq_refl); revert H Q;
      match goal with |- ?a = _ -> match ?b with _ => _ end -> _ => change b with a; destruct a; [|discriminate] end;
      intros [= <-] Q; exact Q.
  - (* SIns *) eapply x_ins; eauto.
  - (* SFull *)
    destruct (jb (hp s n)) as [| | | | |o c m low high| | | |] eqn:J; try discriminate. injection H as <-.
    pose proof (ok_full leb HO _ _ _ _ HI FI n o c m low high J) as Q. cbv zeta in Q.
    destruct (lvl (hp s n) =? 1); exact (xo Q).
  - (* SThaw *)
    destruct (jb (hp s n)) as [| | | | | |o c m low high [|]| | |] eqn:J; try discriminate. injection H as <-.
    exact (xo (ok_thaw leb HO _ _ _ _ HI FI n o c m low high J)).
  - (* SSwap *) eapply x_swap; eauto.
  - (* STake *) eapply x_take; eauto.
  - (* SCommit *)
    destruct (jb (hp s n)) as [| | | | | | | |c low high lns i|] eqn:J; try discriminate.
    destruct (Nat.eqb_spec (lvl (hp s n)) 1) as [L1|L1].
    + destruct i as [|[|[|[|i]]]].
      * injection H as <-. exact (xo (ok_cthaw leb HO _ _ _ _ HI FI n c low high lns 0 low L1 J (or_introl (conj eq_refl eq_refl)))).
      * injection H as <-. exact (xo (ok_cthaw leb HO _ _ _ _ HI FI n c low high lns 1 high L1 J (or_intror (conj eq_refl eq_refl)))).
      * destruct lns as [[a b]|]; injection H as <-.
        -- exact (xo (ok_cfree leb HO _ _ _ _ HI FI n c low high a b 2 a L1 J (or_introl (conj eq_refl eq_refl)))).
        -- refine (xo (ok_cend leb HO _ _ _ _ HI FI n c low high _ _ L1 J _)); lia.
      * destruct lns as [[a b]|]; injection H as <-.
        -- exact (xo (ok_cfree leb HO _ _ _ _ HI FI n c low high a b 3 b L1 J (or_intror (conj eq_refl eq_refl)))).
        -- refine (xo (ok_cend leb HO _ _ _ _ HI FI n c low high _ _ L1 J _)); lia.
      * destruct lns as [[a b]|]; injection H as <-;
          refine (xo (ok_cend leb HO _ _ _ _ HI FI n c low high _ _ L1 J _)); lia.
    + injection H as <-. pose proof (ok_commit2 leb HO _ _ _ _ HI FI n c low high lns i L1 J) as Q. cbv zeta in Q.
      unfold commit_child. cbn [hp modi put with_hp].
      destruct (jb (upd (hp s) n (set_jb Poison (hp s n)) c)); exact (xo Q).
  - (* SRoll *)
    destruct (jb (hp s n)) as [| | | | | | |o c m low high [tk|] lns| |] eqn:J; try discriminate.
    pose proof (ok_roll leb HO _ _ _ _ HI FI n o c m low high lns J) as Q. cbv zeta in Q. revert H.
    cbn [hp modi put with_hp]. destruct (lvl _ =? 1).
    + intros [= <-]. exact (xo Q).
    + destruct (jb (upd (hp s) n (set_jb Locked (hp s n)) c)); intros [= <-]; exact (xo Q).
  - (* SRem *)
    destruct (jb (hp s n)) eqn:J; try discriminate. destruct (slot_child (cells (hp s n)) j) as [c|] eqn:Hs; [|discriminate].
    destruct (retired (hp s c)) eqn:R; [|discriminate]. injection H as <-.
    exact (xo (ok_rem leb HO _ _ _ _ HI FI n j c J Hs R)).
  - (* SUb *)
    destruct (jb (hp s n)) eqn:J; try discriminate. destruct (lvl (hp s n)) as [|[|ln]] eqn:L; try discriminate.
    destruct (ub (hp s n)) as [| |c] eqn:U; try discriminate.
    destruct (rev (cells (hp s n))) as [|[sk [j d]] rr] eqn:Rv; [discriminate|].
    destruct (retired (hp s c)) eqn:R; [|discriminate]. injection H as <-.
    assert (cells (hp s n) = rev rr ++ [(sk, (j, d))]) as Hcs.
    { rewrite <- (rev_involutive (cells (hp s n))), Rv. reflexivity. }
    exact (xo (ok_ub leb HO _ _ _ _ HI FI n (rev rr) sk j c d J U Hcs R)).
  - (* SUbRem *)
    destruct (jb (hp s n)) eqn:J; try discriminate. injection H as <-.
    exact (xo (ok_ubrem leb HO _ _ _ _ HI FI n _ J)).
  - (* SRet *)
    destruct (jb (hp s n)) eqn:J; try discriminate. destruct (cells (hp s n)) eqn:Hcs; [|discriminate].
    destruct (ub (hp s n)) as [| |c] eqn:U; try discriminate.
    destruct (retired (hp s c)) eqn:R; [|discriminate]. injection H as <-.
    exact (xo (ok_ret leb HO _ _ _ _ HI FI n c J U Hcs R)).
  - (* SRSplit *)
    destruct (root s) as [n|] eqn:Rt; [|discriminate].
    destruct (jb (hp s n)) as [| | | | | | |o c m low high [tk|] lns| |] eqn:J; try discriminate. revert H.
    set (s1 := with_root _ _). assert (Inv s1 /\ X s s1) as [I1 X1].
    { destruct HK as [k]; [discriminate|].
      assert (Live leb (hp s) (Some n) n) as Lv by (exists k; now constructor).
      pose proof (ok_top leb _ _ _ _ HI FI n 0 eq_refl Lv) as Q. rewrite <- Rt in Q at 1. split; [|now apply xo in Q].
      exact (inv_sys leb s _ _ _ I Q (fun _ => inhabits k)). }
    destruct (take s1 (fresh s) PUb b) as [s2|] eqn:E2; [|discriminate]. cbn [bind].
    pose proof (inv_take leb HO _ _ _ _ _ I1 E2) as I2. pose proof (x_take _ _ _ _ _ I1 E2) as X2.
    destruct (ins_low leb s2 (fresh s)) as [s3|] eqn:E3; [|discriminate]. cbn [bind].
    pose proof (inv_ins leb HO _ _ _ I2 E3) as I3. pose proof (x_ins _ _ _ I2 E3) as X3. rewrite (i_err leb s3 I3). intros H.
    pose proof (x_swap _ _ _ I3 H) as X4. destruct (h_root _ _ _ _ _ HI n eq_refl) as (Hn & _).
    assert (fresh s1 = S (fresh s)) as Hf by reflexivity.
    assert (Sm s s1) as S1. { intros y Hy. cbn. unfold upd. eqs; [lia|]. repeat split. }
    assert (Sm s s2) as S2. { intros y Hy. eapply same_trans; [|apply S1; auto]. eapply sm_take; eauto. lia. }
    assert (Sm s s3) as S3. { intros y Hy. eapply same_trans; [|apply S2; auto]. eapply sm_ins; eauto. lia. }
    assert (X s s2) as X2' by (eapply x_trans; eauto).
    assert (X s s3) as X3' by (eapply x_trans; eauto).
    eapply x_trans; eauto.
  - (* SRPop *)
    destruct (root s) as [n|] eqn:Rt; [|discriminate]. destruct (jb (hp s n)) eqn:J; try discriminate.
    destruct (lvl (hp s n)) as [|[|ln]] eqn:L; try discriminate. destruct (cells (hp s n)) eqn:Hcs; [|discriminate].
    destruct (ub (hp s n)) as [| |c] eqn:U; try discriminate. injection H as <-.
    unfold X. rewrite Rt. refine (xo (ok_pop leb _ _ _ _ HI FI n c eq_refl J Hcs U _)). rewrite L. discriminate.
  - (* SRNone *)
    destruct (root s) as [n|] eqn:Rt; [|discriminate]. destruct (jb (hp s n)) eqn:J; try discriminate.
    destruct (ub (hp s n)) as [| |c] eqn:U; try discriminate. injection H as <-.
    unfold X. rewrite Rt. refine (xo (ok_none leb _ _ _ _ HI FI n _ eq_refl J U _)). destruct (lvl (hp s n)) as [|[|]]; auto.
Qed.
End run.
