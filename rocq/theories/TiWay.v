(** Where the way of a key that leads to a leaf leads after a step: to the same leaf, or to a half of the
    leaf, or the leaf was deleted from the list and is dropped. *)
From Coq Require Import List Arith Bool Lia.
From Verif Require Import TcModel TcRoute TcSpec TcInv TcTree TcFrame TcKeep TcJobs TcSplit TcFrz TcMove TcGrow TcFz TcFzs TcExt TcOps TcSys TcRun TiModel TiInv TiConv TiList TiMove TiBlk TiPush TiStep TiSysA TiSysB TiSysC TiSysD TiSysE TiSysF TiSys TiJob.
Import ListNotations.

Section way.
Context {K V : Type} (leb : K -> K -> bool) (HO : tord leb).
Notation st := (st K V).
Notation Inv := (Inv leb).
Notation heap := (nat -> obj K V).
Notation SS := (SS leb).
Notation nxt := (nxt leb).
Implicit Types (s : st) (n y z w x p q : nat).
Definition on s : K -> nat -> Prop := On leb (hp s) (root s).
Definition Mvd s (g : nat -> stg) s' k y : Prop := exists n o om lo hi, n < fresh s /\ lvl (hp s n) = 1
  /\ jv (jb (hp s n)) = Some (o, y, om, lo, hi) /\ pub g n /\ on s' k (sel leb om lo hi k).
Definition Mw s (g : nat -> stg) s' : Prop := forall k y, on s k y -> lvl (hp s y) = 0 -> on s' k y \/ Mvd s g s' k y.
Definition Way s (g : nat -> stg) s' : Prop := forall k y, on s k y -> lvl (hp s y) = 0 ->
  on s' k y \/ (exists n o, g n = GRet o /\ ptr (hp s n) o = Some y) \/ Mvd s g s' k y.

Section one.
Context (s : st) (I : Inv s) (nx : nat -> option nat) (d : nat -> bool) (g : nat -> stg) (J0 : SS s nx d g).
Notation HI := (i_h leb s I).
Notation FI := (i_f leb s I).
Lemma way_same s' : root s' = root s -> (forall y, y < fresh s -> same (hp s' y) (hp s y)) -> Way s g s'.
Proof. intros R Sm k y O _. left. unfold on in *. rewrite R. now apply (on_same leb (hp s) (fresh s) (root s) (log s) HI). Qed.
Lemma way_mvr s' n : root s' = root s -> MvR leb (fresh s) (hp s) (root s) (hp s') n -> (lvl (hp s n) = 1 -> pub g n) -> Mw s g s'.
Proof.
  intros R Mv HP k y O Ly. unfold on in *. rewrite R.
  destruct (proj1 Mv k y O) as [?|(n' & o & om & lo & hi & Hn & Tk & J & O')]; auto. right.
  destruct (jv_c_lt leb _ _ _ _ HI _ _ _ _ _ _ Hn J) as [_ Ln]. exists n', o, om, lo, hi. unfold on. rewrite R. rewrite Ly in Ln.
  split; auto. split; auto. split; auto. split; auto. exact (mv_pub leb _ _ _ _ _ _ J0 n HP n' Ln Tk).
Qed.
Lemma way_drop s' n : root s' = root s -> MvT leb (hp s) (root s) (hp s') -> n < fresh s -> (forall y, y <> n -> hp s' y = hp s y) ->
  (lvl (hp s n) = 1 -> exists o, g n = GRet o /\ forall k, nxt (hp s') n k = nxt (hp s) n k \/ nxt (hp s) n k = ptr (hp s n) o) -> Way s g s'.
Proof.
  intros R Mv Hn Eo D k y O Ly. unfold on in *. rewrite R.
  destruct (on_inv leb _ _ _ _ O) as [Hr|(u & Ou & Nu)].
  { destruct (h_root _ _ _ _ _ HI _ Hr) as (_ & L & _). congruence. }
  assert (u < fresh s) as Hu by (eapply on_lt; eauto using HI).
  destruct (kid_lvl leb _ _ _ _ HI u y Hu (nxt_kid leb _ u k y Nu)) as [Lu _]. rewrite Ly in Lu.
  assert (On leb (hp s') (root s) k u) as Ou'.
  { destruct (proj1 Mv k u Ou) as [?|Rt]; auto. exfalso. unfold retired in Rt. rewrite Lu in Rt.
    rewrite (ub_nil leb _ _ _ _ HI u k Hu) in Nu; [discriminate|]. intros v E. rewrite E in Rt. discriminate. }
  destruct (Nat.eq_dec u n) as [->|Nun].
  - destruct (D Lu) as (o & G & Q). destruct (Q k) as [E|E].
    + left. eapply On_step; [exact Ou'|]. congruence.
    + right. left. exists n, o. split; auto. congruence.
  - left. eapply On_step; [exact Ou'|]. unfold TcInv.nxt in *. now rewrite Eo.
Qed.

Lemma take_on n o b s' : take s n o b = Some s' -> root s' = root s /\ forall k y, on s k y -> on s' k y.
Proof.
  intros H. unfold take in H.
  destruct (jb (hp s n)) eqn:J; try discriminate. destruct (ptr (hp s n) o) as [c|] eqn:Hp; [|discriminate].
  destruct (lvl (hp s c)) as [|lc] eqn:Lc; [discriminate|].
  destruct (jb (hp s c)) as [| | | | | | |o1 c1 m1 lo1 hi1 [tk|] lns1| |] eqn:Jc; try discriminate.
  destruct (build (hp s c) o1 m1 lo1 hi1 b n) as [[[mid xl] xh]|] eqn:Hb; [|discriminate].
  injection H as <-. split; auto. intros k y O. apply (on_same leb (hp s) (fresh s) (root s) (log s) HI); auto. intros y1 Hy. cbn. unfold upd.
  repeat match goal with |- context [?a =? ?b] => destruct (Nat.eqb_spec a b); subst; cbn end; try lia; repeat split.
Qed.
Lemma way_take n o b s' : take s n o b = Some s' -> Way s g s'.
Proof. intros H k y O _. left. now apply (take_on n o b). Qed.
Lemma way_ins n s' : ins_low leb s n = Some s' -> (lvl (hp s n) = 1 -> g n = GLo) -> root s' = root s /\ Mw s g s'.
Proof.
  intros H G. unfold ins_low in H. destruct (jb (hp s n)) as [| | | | |o c m low high| | | |] eqn:J; try discriminate.
  destruct (ok_ins leb HO _ _ _ _ HI FI n o c m low high J) as [_ Hk]. rewrite Hk in H. injection H as <-. split; auto.
  apply (way_mvr _ n); auto; [|intros; left; auto].
  exact (proj1 (proj2 (mv_ins leb HO _ _ _ _ HI FI n o c m low high J))).
Qed.
Lemma way_swap n s' : swap_high s n = Some s' -> (lvl (hp s n) = 1 -> g n = GDel) -> root s' = root s /\ Mw s g s'.
Proof.
  intros H G. unfold swap_high in H.
  destruct (jb (hp s n)) as [| | | |o c low| |o c m low high [|]| | |] eqn:J; try discriminate; injection H as <-;
    (destruct (locked_lt leb _ _ _ _ HI FI n) as [Hn Ln]; [congruence|]).
  - split; auto. apply (way_mvr _ n); auto; [|intros; right; auto].
    assert (jv (jb (hp s n)) = Some (o, c, None, low, low)) as Jv by now rewrite J.
    destruct (jv_c_lt leb _ _ _ _ HI _ _ _ _ _ _ Hn Jv) as [Hc Lc]. assert (c <> n) as Ncn by (intros ->; lia).
    refine (proj2 (proj2 (step_swap0 leb HO _ _ _ _ HI _ n o c low Hn J _ _ _))); cbn.
    + rewrite upd_eq, upd_ne; auto.
    + now rewrite upd_ne, upd_eq.
    + intros. now rewrite !upd_ne.
  - split; [unfold commit_child; destruct (jb (hp s c)); auto|]. apply (way_mvr _ n); auto; [unfold commit_child; destruct (jb (hp s c)); auto| |intros; right; auto].
    assert (jv (jb (hp s n)) = Some (o, c, Some m, low, high)) as Jv by now rewrite J.
    destruct (jv_c_lt leb _ _ _ _ HI _ _ _ _ _ _ Hn Jv) as [Hc Lc]. assert (c <> n) as Ncn by (intros ->; lia).
    refine (proj2 (proj2 (step_swap leb HO _ _ _ _ HI _ n o c m low high Hn J _ _ _))); unfold commit_child; destruct (jb (hp s c)); cbn; intros; unfold upd;
      repeat match goal with |- context [?a =? ?b] => destruct (Nat.eqb_spec a b); subst; cbn end; try congruence; auto.
Qed.

(** All other steps of the system. *)
Lemma way_sys a s' : step_sys leb a s = Some s' ->
  (forall n j, a = SRem n j -> lvl (hp s n) = 1 -> g n = GRet (PSlot j)) -> (forall n, a = SRet n -> lvl (hp s n) = 1 -> g n = GRet PUb) ->
  (forall n, a = SIns n -> lvl (hp s n) = 1 -> g n = GLo) -> (forall n, a = SSwap n -> lvl (hp s n) = 1 -> g n = GDel) ->
  (forall b, a <> SRSplit b) -> Way s g s'.
Proof.
  intros H GR GT GI GS NS.
  assert (Way s g (crash s)) as Cr by (apply way_same; auto; intros; repeat split).
  destruct a; try discriminate; cbn [step_sys] in H.
  - destruct (lvl (hp s n)) as [|ln] eqn:L; [discriminate|]. destruct (jb (hp s n)) eqn:J; try discriminate.
    destruct (_ || _) eqn:D; [|discriminate]. injection H as <-.
    apply way_same; auto. intros y Hy. cbn. unfold upd. destruct (Nat.eqb_spec y n) as [->|]; repeat split.
  - destruct (jb (hp s n)) eqn:J; try discriminate. injection H as <-.
    apply way_same; auto. intros y Hy. cbn. unfold upd. destruct (Nat.eqb_spec y n) as [->|]; repeat split.
  - assert (forall l, match (if negb (is_open (hp s l)) then Some (crash s) else
        match m with
        | None => Some (modi (alloc (modi s l (set_fz (Orig n))) (leaf0 (ents (hp s l)) Open n)) n (set_jb (Swap0 o l (fresh s))))
        | Some m =>
            match get leb (ents (hp s l)) m, above leb m (ents (hp s l)) with
            | Some _, _ :: _ => Some (modi (alloc (alloc (modi s l (set_fz (Orig n))) (leaf0 (upto leb m (ents (hp s l))) (Hold n) n))
                (leaf0 (above leb m (ents (hp s l))) Open n)) n (set_jb (Split o l m (fresh s) (S (fresh s)))))
            | _, _ => None
            end
        end) with Some s' => Way s g s' | None => True end) as Q.
    { intros l. destruct (negb _); auto. destruct m as [m|].
      - destruct (get leb (ents (hp s l)) m) as [v|] eqn:Gm; auto. destruct (above leb m (ents (hp s l))) as [|e0 r0] eqn:Ab; auto.
        apply way_same; auto. intros y Hy. cbn. unfold upd.
        repeat match goal with |- context [?a =? ?b] => destruct (Nat.eqb_spec a b); subst; cbn end; try lia; repeat split.
      - apply way_same; auto. intros y Hy. cbn. unfold upd.
        repeat match goal with |- context [?a =? ?b] => destruct (Nat.eqb_spec a b); subst; cbn end; try lia; repeat split. }
    destruct (jb (hp s n)) eqn:J; destruct (ub (hp s n)) eqn:U; try discriminate;
      destruct (lvl (hp s n)) as [|[|ln]] eqn:L1; try discriminate;
      destruct (ptr (hp s n) o) as [l|] eqn:Hp; try discriminate;
      specialize (Q l); revert H Q;
      match goal with |- ?a = _ -> match ?b with _ => _ end -> _ => change b with a; destruct a; [|discriminate] end;
      intros [= <-] Q; exact Q.
  - intros k y O Ly. destruct (proj2 (way_ins n s' H (GI n eq_refl)) k y O Ly); auto.
  - destruct (jb (hp s n)) as [| | | | |o c m low high| | | |] eqn:J; try discriminate. injection H as <-.
    destruct (lvl (hp s n) =? 1) eqn:L; apply way_same; auto; intros y Hy; cbn; unfold upd;
      repeat match goal with |- context [?a =? ?b] => destruct (Nat.eqb_spec a b); subst; cbn end; try lia; repeat split.
  - destruct (jb (hp s n)) as [| | | | | |o c m low high [|]| | |] eqn:J; try discriminate. injection H as <-.
    apply way_same; auto; intros y Hy; cbn; unfold upd;
      repeat match goal with |- context [?a =? ?b] => destruct (Nat.eqb_spec a b); subst; cbn end; try lia; repeat split.
  - intros k y O Ly. destruct (proj2 (way_swap n s' H (GS n eq_refl)) k y O Ly); auto.
  - eapply way_take; eauto.
  - destruct (jb (hp s n)) as [| | | | | | | |c low high lns i|] eqn:J; try discriminate.
    destruct (Nat.eqb_spec (lvl (hp s n)) 1) as [L1|L1].
    + destruct i as [|[|[|[|i]]]]; try destruct lns as [[a b]|]; injection H as <-; apply way_same; auto; intros y Hy; cbn; unfold upd;
      repeat match goal with |- context [?a =? ?b] => destruct (Nat.eqb_spec a b); subst; cbn end; try lia; repeat split.
    + injection H as <-. unfold commit_child. destruct (jb (hp (modi s n (set_jb Poison)) c)) eqn:Jc; apply way_same; auto; intros y Hy; cbn; unfold upd;
      repeat match goal with |- context [?a =? ?b] => destruct (Nat.eqb_spec a b); subst; cbn end; try lia; repeat split.
  - destruct (jb (hp s n)) as [| | | | | | |o c m low high [tk|] lns| |] eqn:J; try discriminate. revert H.
    cbn [hp modi put with_hp]. destruct (lvl _ =? 1).
    + intros [= <-]. apply way_same; auto; intros y Hy; cbn; unfold upd;
      repeat match goal with |- context [?a =? ?b] => destruct (Nat.eqb_spec a b); subst; cbn end; try lia; repeat split.
    + destruct (jb (upd (hp s) n (set_jb Locked (hp s n)) c)) eqn:Jc; intros [= <-]; apply way_same; auto; intros y Hy; cbn; unfold upd;
      repeat match goal with |- context [?a =? ?b] => destruct (Nat.eqb_spec a b); subst; cbn end; try lia; repeat split.
  - destruct (jb (hp s n)) eqn:J; try discriminate. destruct (slot_child (cells (hp s n)) j) as [c|] eqn:Hs; [|discriminate].
    destruct (retired (hp s c)) eqn:R; [|discriminate]. injection H as <-.
    destruct (locked_lt leb _ _ _ _ HI FI n) as [Hn Ln]; [congruence|].
    match goal with |- Way s g ?x => set (s' := x) end.
    assert (hp s' n = drop_low (hp s n) j) as A1 by (cbn; now rewrite upd_eq).
    assert (forall y, y <> n -> hp s' y = hp s y) as A2 by (intros y Ny; cbn; now rewrite upd_ne).
    destruct (step_rem leb HO _ _ _ _ HI (hp s') n j c Hn J Hs R A1 A2) as (_ & _ & Mv).
    apply (way_drop s' n eq_refl Mv Hn A2). intros L1. exists (PSlot j). split; [now apply GR|]. intros k. unfold TcInv.nxt. rewrite A1.
    destruct (pos leb (hp s n) k) as [i|] eqn:P.
    + destruct (Nat.eq_dec i j) as [->|Nij]; [right; unfold TcRoute.nx; now rewrite P|left; apply (drop_nx_same leb); congruence].
    + left. apply (drop_nx_same leb). congruence.
  - destruct (jb (hp s n)) eqn:J; try discriminate. destruct (lvl (hp s n)) as [|[|ln]] eqn:L; try discriminate.
    destruct (ub (hp s n)) as [| |c] eqn:U; try discriminate.
    destruct (rev (cells (hp s n))) as [|[sk [j dd]] rr] eqn:Rv; [discriminate|].
    destruct (retired (hp s c)) eqn:R; [|discriminate]. injection H as <-.
    destruct (locked_lt leb _ _ _ _ HI FI n) as [Hn Ln]; [congruence|].
    assert (cells (hp s n) = rev rr ++ [(sk, (j, dd))]) as Hcs.
    { rewrite <- (rev_involutive (cells (hp s n))), Rv. reflexivity. }
    match goal with |- Way s g ?x => set (s' := x) end.
    assert (hp s' n = set_jb (CUb j) (set_ub (hp s n) (UTo dd))) as A1 by (cbn; now rewrite upd_eq).
    assert (forall y, y <> n -> hp s' y = hp s y) as A2 by (intros y Ny; cbn; now rewrite upd_ne).
    destruct (step_ub leb HO _ _ _ _ HI (hp s') n (rev rr) sk j c dd Hn J U Hcs R A1 A2) as (_ & _ & Mv).
    apply (way_drop s' n eq_refl Mv Hn A2). congruence.
  - destruct (jb (hp s n)) eqn:J; try discriminate. injection H as <-.
    destruct (locked_lt leb _ _ _ _ HI FI n) as [Hn Ln]; [congruence|].
    match goal with |- Way s g ?x => set (s' := x) end.
    destruct (step_ubrem leb HO _ _ _ _ HI (hp s') n j Hn J) as (_ & N); [cbn; now rewrite upd_eq|intros y Ny; cbn; now rewrite upd_ne|].
    intros k y O _. left. unfold on in *. change (root s') with (root s). induction O as [q Hq|u z Hu IH Hz]; [now constructor|]. eapply On_step; eauto. now rewrite N.
  - destruct (jb (hp s n)) eqn:J; try discriminate. destruct (cells (hp s n)) eqn:Hcs; [|discriminate].
    destruct (ub (hp s n)) as [| |c] eqn:U; try discriminate.
    destruct (retired (hp s c)) eqn:R; [|discriminate]. injection H as <-.
    destruct (locked_lt leb _ _ _ _ HI FI n) as [Hn Ln]; [congruence|].
    match goal with |- Way s g ?x => set (s' := x) end.
    assert (hp s' n = set_ub (hp s n) URet) as A1 by (cbn; now rewrite upd_eq).
    assert (forall y, y <> n -> hp s' y = hp s y) as A2 by (intros y Ny; cbn; now rewrite upd_ne).
    destruct (step_ret leb HO _ _ _ _ HI (hp s') n c Hn J U Hcs R A1 A2) as (_ & _ & Mv).
    apply (way_drop s' n eq_refl Mv Hn A2). intros L1. exists PUb. split; [now apply GT|]. intros k. right.
    unfold TcInv.nxt, TcRoute.nx. rewrite pos_rts, Hcs. reflexivity.
  - now destruct (NS b).
  - destruct (root s) as [n|] eqn:Rt; [|discriminate]. destruct (jb (hp s n)) eqn:J; try discriminate.
    destruct (lvl (hp s n)) as [|[|ln]] eqn:L; try discriminate. destruct (cells (hp s n)) eqn:Hcs; [|discriminate].
    destruct (ub (hp s n)) as [| |c] eqn:U; try discriminate. injection H as <-.
    intros k y O Ly. left. unfold on in *. rewrite Rt in O. cbn.
    assert (y = n \/ On leb (upd (hp s) n (set_jb Poison (set_over None (hp s n)))) (Some c) k y) as [->|]; [|congruence|auto]. clear Ly.
    induction O as [q Hq|u z Hu' IH Hz]; [left; congruence|]. right. destruct IH as [->|IH].
    + unfold TcInv.nxt, TcRoute.nx in Hz. rewrite pos_rts, Hcs in Hz. cbn in Hz. rewrite U in Hz. injection Hz as <-. now constructor.
    + eapply On_step; eauto. unfold TcInv.nxt in *. unfold upd. destruct (Nat.eqb_spec u n) as [->|]; auto.
  - destruct (root s) as [n|] eqn:Rt; [|discriminate]. destruct (jb (hp s n)) eqn:J; try discriminate.
    destruct (ub (hp s n)) as [| |c] eqn:U; try discriminate. injection H as <-.
    destruct (locked_lt leb _ _ _ _ HI FI n) as [Hn Ln]; [congruence|].
    intros k y O Ly. exfalso. assert (y = n) as ->; [|congruence]. clear Ly. unfold on in O. rewrite Rt in O.
    induction O as [q Hq|u z Hu' IH Hz]; [congruence|]. subst u. rewrite (ub_nil leb _ _ _ _ HI) in Hz; auto; congruence.
Qed.

(** Steps of calls. *)
Lemma way_nx s' : root s' = root s -> (forall y k, y < fresh s -> nxt (hp s') y k = nxt (hp s) y k) -> Way s g s'.
Proof.
  intros R N k y O _. left. unfold on in *. rewrite R. induction O as [q Hq|u z Hu IH Hz]; [now constructor|].
  eapply On_step; eauto. rewrite N; auto. eapply on_lt; eauto using HI.
Qed.
Lemma way_op a t (p : op K V) s' : step_op leb a s t p = Some s' -> Way s g s'.
Proof.
  intros H.
  assert (hp s' = hp s -> root s' = root s -> Way s g s') as Sm.
  { intros E1 E2. apply way_nx; auto. now rewrite E1. }
  assert (forall l es b, hp s' = upd (hp s) l (set_ents (hp s l) es b) -> root s' = root s -> Way s g s') as Wr.
  { intros l es b E1 E2. apply way_nx; auto. intros y k _. rewrite E1. unfold TcInv.nxt, upd. destruct (Nat.eqb_spec y l) as [->|]; auto. }
  destruct a; try discriminate H; destruct (pc p) as [| |y|y M|y M c|y| |] eqn:P; cbn [step_op] in H; try rewrite P in H; try discriminate H.
  - destruct (root s) eqn:R0; [injection H as <-; now apply Sm|]. destruct (kind p); try discriminate; injection H as <-; now apply Sm.
  - destruct (kind p) as [k|k v|k c] eqn:Ek; try discriminate H. destruct (root s) as [n|] eqn:R; [discriminate|].
    intros k0 y O. exfalso. unfold on in O. rewrite R in O. eapply on_none; eauto.
  - injection H as <-. now apply Sm.
  - destruct (route leb (fst M) (okey (kind p))) as [j|] eqn:Ro.
    + destruct (slot_child (cells (hp s y)) j) as [c|] eqn:Sc; injection H as <-; now apply Sm.
    + destruct (ub (hp s y)) as [| |c] eqn:U.
      * destruct (kind p) as [a|a b|a cond] eqn:Ek; try (injection H as <-; now apply Sm).
        destruct (Nat.eqb_spec (lvl (hp s y)) 1) as [L1|L1]; [|injection H as <-; now apply Sm].
        assert (y < fresh s) as Hy by (apply (lvl1_lt _ _ FI); lia).
        pose proof (s_un _ _ _ _ _ _ _ J0 y Hy L1 U) as Rt.
        intros k z O Lz. exfalso. assert (z = y) as ->; [|congruence]. clear Lz. unfold on in O. rewrite Rt in O.
        induction O as [q Hq|u z Hu' IH Hz]; [congruence|]. subst u. rewrite (ub_nil leb _ _ _ _ HI) in Hz; auto; congruence.
      * destruct (kind p) as [a|a b|a cond] eqn:Ek; injection H as <-; now apply Sm.
      * injection H as <-. now apply Sm.
  - destruct (meta_eqb _ _ _); [destruct (_ =? 1)|]; injection H as <-; now apply Sm.
  - destruct (kind p) as [a|a v|a cond] eqn:Ek.
    + injection H as <-. now apply Sm.
    + destruct (_ || _); [injection H as <-; now apply Sm|]. destruct (get _ _ _); [injection H as <-; now apply Sm|].
      destruct full; injection H as <-; [now apply Sm|]. eapply Wr; reflexivity.
    + destruct (negb _); [injection H as <-; now apply Sm|]. destruct (get _ _ _); [|injection H as <-; now apply Sm].
      destruct (cond _); [|injection H as <-; now apply Sm]. destruct (del _ _ _) eqn:D; injection H as <-; eapply Wr; reflexivity.
  - destruct (kind p); try discriminate; injection H as <-; now apply Sm.
  - destruct (existsb _ _); [|discriminate]. injection H as <-; now apply Sm.
  - injection H as <-. now apply Sm.
  - destruct (root s) eqn:R0; [|discriminate]. destruct (_ && _); [|discriminate]. injection H as <-. now apply Sm.
Qed.
End one.

Lemma jt_none (j : job K) : jt j = None -> jv j = None.
Proof. destruct j; cbn; auto; discriminate. Qed.
Definition JV x s s' : Prop := forall n t, n <> x -> lvl (hp s' n) = 1 -> jv (jb (hp s' n)) = Some t -> lvl (hp s n) = 1 /\ jv (jb (hp s n)) = Some t.
Lemma jv_take s n o b s' : take s n o b = Some s' -> JV n s s'.
Proof.
  intros H. unfold take in H.
  destruct (jb (hp s n)) eqn:J; try discriminate. destruct (ptr (hp s n) o) as [c|] eqn:Hp; [|discriminate].
  destruct (lvl (hp s c)) as [|lc] eqn:Lc; [discriminate|].
  destruct (jb (hp s c)) as [| | | | | | |o1 c1 m1 lo1 hi1 [tk|] lns1| |] eqn:Jc; try discriminate.
  destruct (build (hp s c) o1 m1 lo1 hi1 b n) as [[[mid xl] xh]|] eqn:Hb; [|discriminate].
  destruct (build_jt _ _ _ _ _ _ _ _ _ _ _ Hb) as [B1 B2]. apply jt_none in B1, B2. injection H as <-.
  intros nn m Nn A B. cbn in A, B. unfold upd in A, B.
  repeat match goal with H : context [?a =? ?b] |- _ => destruct (Nat.eqb_spec a b); subst; cbn in H end; try congruence; auto.
  rewrite Jc. split; [exact A|exact B].
Qed.
Lemma jv_ins s n s' : ins_low leb s n = Some s' -> JV n s s'.
Proof.
  intros H. unfold ins_low in H. destruct (jb (hp s n)) as [| | | | |o c mm low high| | | |] eqn:J; try discriminate.
  destruct (has_key _ _ _); injection H as <-; [intros ? ? ? ?; auto|].
  intros nn m Nn A B. cbn in A, B. unfold upd in A, B.
  repeat match goal with H : context [?a =? ?b] |- _ => destruct (Nat.eqb_spec a b); subst; cbn in H end; try congruence.
  destruct (inch _ _ _ _); auto.
Qed.
Lemma way_split s nx d g b s' : Inv s -> SS s nx d g -> step_sys leb (SRSplit b) s = Some s' ->
  (forall r, root s = Some r -> lvl (hp s r) = 1 -> g r = GLo) -> Mw s g s'.
Proof.
  intros I J0 H G. destruct (split3 leb HO _ _ _ I H) as (n & s1 & s2 & s3 & Rt & (o & c & m & low & high & lns & J) & E1 & I1 & E2 & I2 & E3 & I3 & H').
  destruct (h_root _ _ _ _ _ (i_h leb s I) n Rt) as (Hn & Ln & _).
  assert (hp s1 (fresh s) = node0 (S (lvl (hp s n))) [] 0 (UTo n) Locked 0) as A1 by (rewrite E1; cbn; now rewrite upd_eq).
  assert (forall y, y <> fresh s -> hp s1 y = hp s y) as A2 by (intros y Hy; rewrite E1; cbn; now rewrite upd_ne by lia).
  assert (fresh s1 = S (fresh s) /\ root s1 = Some (fresh s)) as [F1 R1] by (rewrite E1; auto).
  assert (lvl (hp s1 (fresh s)) <> 1) as L1. { rewrite A1. cbn. lia. }
  assert (forall k y, on s k y -> on s1 k y) as O1.
  { intros k y O. unfold on in *. rewrite R1. induction O as [q Hq|u z Hu IH Hz].
    - eapply On_step; [now constructor|]. unfold TcInv.nxt, TcRoute.nx. rewrite pos_rts, A1. cbn. congruence.
    - eapply On_step; eauto. unfold TcInv.nxt in *. rewrite A2; auto. apply Nat.lt_neq. eapply (on_lt leb _ _ _ _ (i_h leb s I)); eauto. }
  assert (SS s1 nx d g) as S1.
  { rewrite E1. refine (sj_top leb HO _ _ _ _ _ _ J0 _ (i_h leb s I) (i_f leb s I) n 0 g Rt _ _ (fun _ => eq_refl)).
    - rewrite Rt. destruct (i_k leb s I) as [k]; [congruence|]. exists k. now constructor.
    - intros U. pose proof (l_ptr _ _ _ _ _ _ _ _ _ (h_hld _ _ _ _ _ (i_h leb s I) n o c (Some m) low high Hn ltac:(now rewrite J))) as Pp.
      pose proof (h_wf _ _ _ _ _ (i_h leb s I) n Hn) as W. assert (cells (hp s n) = []) as Cn by (apply (w_ub _ _ _ _ W); congruence).
      destruct o as [j|]; cbn in Pp; rewrite ?Cn, ?U in Pp; discriminate. }
  assert (SS s2 nx d g) as S2.
  { refine (ss_take leb HO s1 I1 _ _ _ S1 _ _ _ _ _ E2 _ (fun _ => eq_refl)). intros c' Hc Lc. rewrite A1 in Hc. injection Hc as <-.
    apply G; auto. rewrite A2 in Lc; auto. lia. }
  assert (lvl (hp s2 (fresh s)) <> 1) as L2. { rewrite (lvl_take _ _ _ _ _ _ E2); auto. lia. }
  assert (SS s3 nx d g) as S3 by (refine (ss_ins leb HO s2 I2 _ _ _ S2 _ _ _ E3 _ (fun _ => eq_refl)); tauto).
  assert (lvl (hp s3 (fresh s)) <> 1) as L3 by (rewrite (lvl_ins leb _ _ _ _ E3); auto).
  assert (forall q t, lvl (hp s2 q) = 1 -> jv (jb (hp s2 q)) = Some t -> q < fresh s /\ lvl (hp s q) = 1 /\ jv (jb (hp s q)) = Some t) as B2.
  { intros q t Lq Jq. assert (q <> fresh s) as Nq by congruence. destruct (jv_take _ _ _ _ _ E2 q t Nq Lq Jq) as [A B]. rewrite A2 in A, B by auto.
    split; auto. apply (lvl1_lt _ _ (i_f leb s I)). lia. }
  assert (forall q t, lvl (hp s3 q) = 1 -> jv (jb (hp s3 q)) = Some t -> q < fresh s /\ lvl (hp s q) = 1 /\ jv (jb (hp s q)) = Some t) as B3.
  { intros q t Lq Jq. assert (q <> fresh s) as Nq by congruence. destruct (jv_ins _ _ _ E3 q t Nq Lq Jq) as [A B]. now apply B2. }
  destruct (take_on s1 I1 _ _ _ _ E2) as [R2 O2].
  destruct (way_ins s2 I2 _ _ _ S2 _ _ E3) as [R3 W3]; [tauto|].
  destruct (way_swap s3 I3 _ _ _ S3 _ _ H') as [R4 W4]; [tauto|].
  intros k y O Ly. pose proof (on_lt leb _ _ _ _ (i_h leb s I) _ _ O) as Hy.
  pose proof (O2 _ _ (O1 _ _ O)) as Oy2.
  assert (lvl (hp s2 y) = 0) as Ly2 by (rewrite (lvl_take _ _ _ _ _ _ E2), A2; auto; lia).
  assert (lvl (hp s3 y) = 0) as Ly3 by (rewrite (lvl_ins leb _ _ _ _ E3); auto).
  destruct (W3 k y Oy2 Ly2) as [Oy3|(q & oo & om & lo & hi & Hq & Lq & Jq & Pq & Oq)].
  - destruct (W4 k y Oy3 Ly3) as [?|(q & oo & om & lo & hi & Hq & Lq & Jq & Pq & Oq)]; auto. right.
    destruct (B3 _ _ Lq Jq) as (C1 & C2 & C3). exists q, oo, om, lo, hi. auto.
  - right. destruct (B2 _ _ Lq Jq) as (C1 & C2 & C3). exists q, oo, om, lo, hi. split; auto. split; auto. split; auto. split; auto.
    assert (lvl (hp s3 q) = 1) as Lq3 by (rewrite (lvl_ins leb _ _ _ _ E3); auto).
    destruct (jk_ins leb _ _ _ E3) as (Jk & _). pose proof (Jk q _ Hq Jq) as Jq3.
    pose proof (tp_of (hp s3) g q _ _ _ _ _ Lq3 Jq3) as T. destruct (blk leb _ _ _ _ _ _ S3 _ _ _ _ T) as [_ B].
    assert (lvl (hp s3 (sel leb om lo hi k)) = 0) as Lz. { destruct (b_lv _ _ _ _ _ _ _ _ _ _ _ B) as (B1 & B4 & B5). destruct (sel_in leb om lo hi k) as [->| ->]; auto. }
    destruct (W4 _ _ Oq Lz) as [?|(q' & o' & om' & lo' & hi' & Hq' & Lq' & Jq' & _ & _)]; auto. exfalso.
    pose proof (tp_of (hp s3) g q' _ _ _ _ _ Lq' Jq') as T'.
    assert (y = sel leb om lo hi k) as E.
    { refine (proj1 (proj2 (bd leb _ _ _ _ _ _ _ (s_l _ _ _ _ _ _ _ S3) _ _ _ _ _ _ _ _ (sel leb om lo hi k) T T' _ _))); unfold mem; auto. destruct (sel_in leb om lo hi k); auto. }
    destruct (b_ne _ _ _ _ _ _ _ _ _ _ _ B). destruct (sel_in leb om lo hi k); congruence.
Qed.

(** Steps of the tree in the layer. *)
Lemma way_t a (s s' : ls K V) : SI leb s -> tstep leb a s = Some s' -> Way (tc s) (sg s) (tc s').
Proof.
  intros [I J0] H. unfold tstep in H. destruct (step leb a (tc s)) as [t|] eqn:E; [|discriminate].
  unfold step in E. destruct (err (tc s)) eqn:Er; [discriminate|].
  assert (forall s0, step_sys leb a (tc s) = Some s0 ->
    (forall n j, a = SRem n j -> lvl (hp (tc s) n) = 1 -> sg s n = GRet (PSlot j)) -> (forall n, a = SRet n -> lvl (hp (tc s) n) = 1 -> sg s n = GRet PUb) ->
    (forall n, a = SIns n -> lvl (hp (tc s) n) = 1 -> sg s n = GLo) -> (forall n, a = SSwap n -> lvl (hp (tc s) n) = 1 -> sg s n = GDel) ->
    (forall b, a <> SRSplit b) -> Way (tc s) (sg s) s0) as Q by (intros; eapply (way_sys (tc s) I); eauto).
  destruct a; cbn [actor] in E;
    try (destruct (ops (tc s) t0) as [p|] eqn:Ep; [|discriminate]; injection H as <-; eapply (way_op (tc s) I); eauto; fail);
    try (injection H as <-; apply (Q _ E); intros; discriminate).
  - destruct (ops (tc s) t0); [discriminate|]. injection E as <-. injection H as <-. intros k y O _. now left.
  - apply need_same in H as (g1 & -> & A & B). cbn. apply (Q _ E); intros; discriminate.
  - apply need_same in H as (g1 & -> & A & B). cbn. apply (Q _ E); intros; discriminate.
  - apply need_same in H as (g1 & -> & A & B). cbn. apply (Q _ E); try (intros; discriminate). intros n0 [= <-]. tauto.
  - apply need_same in H as (g1 & -> & A & B). cbn. apply (Q _ E); intros; discriminate.
  - apply need_same in H as (g1 & -> & A & B). cbn. apply (Q _ E); intros; discriminate.
  - apply need_inv in H as (g1 & -> & A & B & C). cbn. apply (Q _ E); try (intros; discriminate). intros n0 [= <-]. tauto.
  - destruct (ptr (nd s n) o) as [c|] eqn:Hp; [|discriminate]. destruct (settled s c) eqn:St; [|discriminate].
    apply need_same in H as (g1 & -> & A & B). cbn. apply (Q _ E); intros; discriminate.
  - assert (tc s' = t) as ->. { destruct (jb (nd s n)) as [| | | | | | | |? ? ? ? [|]|]; try (injection H as <-; auto); apply need_same in H as (g1 & -> & A & B); auto. }
    apply (Q _ E); intros; discriminate.
  - destruct (jb (nd s n)) as [| | | | | | |o c m low high tk lns| |] eqn:J; try discriminate.
    apply need_inv in H as (g1 & -> & A & B & C). cbn. apply (Q _ E); intros; discriminate.
  - apply need_inv in H as (g1 & -> & A & B & C). cbn. apply (Q _ E); try (intros; discriminate). intros n0 j0 [= <- <-]. tauto.
  - apply need_inv in H as (g1 & -> & A & B & C). cbn. apply (Q _ E); try (intros; discriminate). intros n0 [= <-]. tauto.
  - destruct (root (tc s)) as [r|] eqn:Rt; [|discriminate]. destruct (settled s r) eqn:St; [|discriminate]. injection H as <-.
    intros k y O Ly. destruct (way_split (tc s) _ _ _ _ _ I J0 E) with (k := k) (y := y) as [?|?]; auto.
    intros r' Hr Lr. rewrite Rt in Hr. injection Hr as <-.
    unfold settled, is1, nd in St. rewrite Lr in St. cbn in St. now apply is_g_eq.
  - destruct (root (tc s)) as [r|] eqn:Rt; [|discriminate].
    apply need_same in H as (g1 & -> & A & B). cbn. apply (Q _ E); intros; discriminate.
Qed.
End way.
