(** Every step keeps the invariant of the whole system. *)
From Coq Require Import List Arith Bool Lia.
From Verif Require Import TcModel TcRoute TcSpec TcInv TcTree TcFrame TcJobs TcFz TcFzs TcExt TcSys TcOps.
Import ListNotations.

Section run.
Context {K V : Type} (leb : K -> K -> bool) (HO : tord leb).
Notation heap := (nat -> obj K V).
Notation hist := (list (ev K V)).
Notation st := (st K V).
Notation op := (op K V).
Notation HInv := (HInv leb).
Notation Good := (Good leb).
Implicit Types (h : heap) (lg : hist) (s : st) (p : op) (t x : nat) (r : option nat).

Definition okey_ p : K := okey (kind p).
Definition near h r lg p x : Prop := lvl (h x) <> 0 /\ Good h r lg (t0 p) (okey_ p) x.
Definition at_pcs h r lg p : Prop :=
  match pc p with
  | PNone => False
  | PStart => True
  | PNode x => near h r lg p x
  | PMeta x M => near h r lg p x /\ (M = meta_of (h x) \/ ver M < ver (meta_of (h x)))
  | PLoad x M c => near h r lg p x /\
      ((M = meta_of (h x) /\ Good h r lg (t0 p) (okey_ p) c /\ lvl (h x) = S (lvl (h c))) \/ ver M < ver (meta_of (h x)))
  | PLeaf l => lvl (h l) = 0 /\ Good h r lg (t0 p) (okey_ p) l
  | PClean | PDone _ _ => True
  end.
Definition pend lg t p : Prop :=
  match kind p with
  | ORem k _ => (rmd p = false -> quiet lg t)
      /\ (rmd p = true -> exists i, t0 p <= i /\ ev_i lg i = Some (ERem t k))
      /\ forall j a, ev_i lg j = Some a -> by_call t a -> t0 p <= j
  | _ => rmd p = false /\ quiet lg t
  end.
Record OpOK h r lg t p : Prop := {
  o_t0 : t0 p <= length lg;
  o_vis : forall x, In x (vis p) -> near h r lg p x;
  o_pc : at_pcs h r lg p;
  o_clean : pc p = PClean -> rmd p = true /\ exists k cond, kind p = ORem k cond;
  o_log : match pc p with PDone q e => explains leb lg t (kind p) (t0 p) e q | _ => pend lg t p end }.

Definition calls (o : nat -> option op) t : option (opk K V * nat) :=
  match o t with Some p => Some (kind p, t0 p) | None => None end.

Record Inv s : Prop := {
  i_h : HInv (hp s) (fresh s) (root s) (log s);
  i_f : FInv (hp s) (fresh s);
  i_k : root s <> None -> inhabited K;
  i_op : forall t p, ops s t = Some p -> OpOK (hp s) (root s) (log s) t p;
  i_no : forall t, ops s t = None -> quiet (log s) t;
  i_sound : sound leb (log s) (calls (ops s));
  i_err : err s = false }.

(** ** Steps of the system *)
Section keep.
Context h f r lg (HI : HInv h f r lg) (FI : FInv h f).
Context h' f' r' (l : hist) (X : Ext leb h f r h' f' r').
Lemma near_step p x : t0 p <= length lg -> near h r lg p x -> near h' r' (l ++ lg) p x.
Proof.
  intros B [L G]. split; [|eapply good_step; eauto].
  rewrite (x_lvl _ _ _ _ _ _ _ X); auto. eapply good_lt; eauto.
Qed.
Lemma pcs_step p : t0 p <= length lg -> at_pcs h r lg p -> at_pcs h' r' (l ++ lg) p.
Proof.
  intros B. unfold at_pcs.
  assert (forall x (M : meta), near h r lg p x -> M = meta_of (h x) \/ ver M < ver (meta_of (h x)) ->
    (M = meta_of (h x) /\ M = meta_of (h' x)) \/ ver M < ver (meta_of (h' x))) as Q.
  { intros x M [_ G] D. destruct (x_meta _ _ _ _ _ _ _ X x) as [E|E]; [eapply good_lt; eauto| |].
    - rewrite E. destruct D; auto.
    - right. destruct D as [->|D]; auto. lia. }
  destruct (pc p) as [| |x|x M|x M c|x| |]; auto.
  - apply near_step; auto.
  - intros [N D]. split; [now apply near_step|]. destruct (Q _ _ N D); tauto.
  - intros [N D]. split; [now apply near_step|]. 
    destruct D as [(E & G & L)|D].
    + destruct (Q x M N (or_introl E)) as [[_ E']|E']; auto. left. split; auto. split; [eapply good_step; eauto|].
      destruct N as [_ Gx]. rewrite !(x_lvl _ _ _ _ _ _ _ X); auto; eapply good_lt; eauto.
    + destruct (Q x M N (or_intror D)) as [[E _]|E']; auto. rewrite E in D. lia.
  - intros [L G]. split; [|eapply good_step; eauto]. rewrite (x_lvl _ _ _ _ _ _ _ X); auto. eapply good_lt; eauto.
Qed.
End keep.

Lemma inv_sys s h' f' r' : Inv s -> OK leb (hp s) (fresh s) (root s) (log s) h' f' r' ->
  (r' <> None -> inhabited K) -> Inv (St h' f' r' (log s) (ops s) (err s)).
Proof.
  intros I (H1 & H2 & X) Hk. constructor; cbn; auto; try apply I.
  intros t p E. destruct (i_op s I t p E) as [B Vs P Cp L]. constructor; auto.
  - intros x Hx. apply (near_step _ _ _ _ (i_h s I) (i_f s I) _ _ _ [] X); auto.
  - apply (pcs_step _ _ _ _ (i_h s I) (i_f s I) _ _ _ [] X); auto.
Qed.

Lemma near_live s p n : Inv s -> near (hp s) (root s) (log s) p n -> jb (hp s n) = Idle ->
  n < fresh s /\ (Live leb (hp s) (root s) n \/ ub (hp s n) = URet).
Proof.
  intros I [L G] J. pose proof (good_lt leb _ _ _ _ (i_h s I) (i_f s I) _ _ _ G) as Hn. split; auto.
  assert (closed (hp s n) -> Live leb (hp s) (root s) n \/ ub (hp s n) = URet) as Q.
  { intros [C|C].
    - pose proof (idle_noover leb _ _ _ _ (i_h s I) n Hn L) as O. rewrite J in O. rewrite O in C; [discriminate|exact Logic.I].
    - right. unfold retired in C. destruct (lvl (hp s n)); [tauto|]. destruct (ub (hp s n)); auto; discriminate. }
  destruct G; auto. left. eexists; eauto.
Qed.

Lemma inv_take s n o b s' : Inv s -> take s n o b = Some s' -> Inv s'.
Proof.
  intros I H. unfold take in H.
  destruct (jb (hp s n)) eqn:J; try discriminate. destruct (ptr (hp s n) o) as [c|] eqn:Hp; [|discriminate].
  destruct (lvl (hp s c)) as [|lc] eqn:Lc; [discriminate|].
  destruct (jb (hp s c)) as [| | | | | | |o1 c1 m1 lo1 hi1 [tk|] lns1| |] eqn:Jc; try discriminate.
  destruct (build (hp s c) o1 m1 lo1 hi1 b n) as [[[mid xl] xh]|] eqn:Hb; [|discriminate].
  injection H as <-.
  assert (lvl (hp s c) <> 0) as Lc' by congruence.
  pose proof (ok_take leb HO _ _ _ _ (i_h s I) (i_f s I) n c o o1 c1 m1 lo1 hi1 lns1 _ b mid xl xh J Hp Lc' Jc Hb eq_refl) as Q.
  rewrite Lc in Q. exact (inv_sys s _ _ _ I Q (i_k s I)).
Qed.
Lemma inv_ins s n s' : Inv s -> ins_low leb s n = Some s' -> Inv s'.
Proof.
  intros I H. unfold ins_low in H. destruct (jb (hp s n)) as [| | | | |o c m low high| | | |] eqn:J; try discriminate.
  destruct (ok_ins leb HO _ _ _ _ (i_h s I) (i_f s I) n o c m low high J) as [Q Hk]. rewrite Hk in H. injection H as <-.
  exact (inv_sys s _ _ _ I Q (i_k s I)).
Qed.
Lemma inv_swap s n s' : Inv s -> swap_high s n = Some s' -> Inv s'.
Proof.
  intros I H. unfold swap_high in H.
  destruct (jb (hp s n)) as [| | | |o c low| |o c m low high [|]| | |] eqn:J; try discriminate; injection H as <-.
  - pose proof (ok_swap0 leb HO _ _ _ _ (i_h s I) (i_f s I) n o c low J) as Q.
    exact (inv_sys s _ _ _ I Q (i_k s I)).
  - pose proof (ok_swap leb HO _ _ _ _ (i_h s I) (i_f s I) n o c m low high J) as Q.
    unfold commit_child. cbv zeta in Q. destruct (jb (hp s c)) eqn:Jc; exact (inv_sys s _ _ _ I Q (i_k s I)).
Qed.

Lemma inv_step_sys a s s' : Inv s -> step_sys leb a s = Some s' -> Inv s'.
Proof.
  intros I H. pose proof (i_h s I) as HI. pose proof (i_f s I) as FI. pose proof (i_k s I) as HK.
  destruct a; try discriminate; cbn [step_sys] in H.
  - (* SLock *)
    destruct (lvl (hp s n)) as [|ln] eqn:L; [discriminate|]. destruct (jb (hp s n)) eqn:J; try discriminate.
    destruct (_ || _) eqn:D; [|discriminate]. injection H as <-.
    assert (n < fresh s /\ (Live leb (hp s) (root s) n \/ ub (hp s n) = URet)) as [Hn Lv].
    { apply orb_true_iff in D as [D|D].
      - destruct (ops s t) as [p|] eqn:E; [|discriminate]. apply existsb_exists in D as (y & Hy & Ey).
        apply Nat.eqb_eq in Ey. subst y. apply (near_live s p n I); auto. apply (o_vis _ _ _ _ _ (i_op s I t p E)). auto.
      - destruct (root s) as [q|] eqn:R; [|discriminate]. apply Nat.eqb_eq in D. subst q.
        destruct (h_root _ _ _ _ _ HI n eq_refl) as (Hn & _). split; auto. left.
        destruct HK as [k]; [discriminate|]. exists k. now constructor. }
    assert (lvl (hp s n) <> 0) as L' by congruence.
    exact (inv_sys s _ _ _ I (ok_lock leb HO _ _ _ _ HI FI n Hn L' J Lv) HK).
  - (* SUnlock *)
    destruct (jb (hp s n)) eqn:J; try discriminate. injection H as <-.
    exact (inv_sys s _ _ _ I (ok_unlock leb HO _ _ _ _ HI FI n J) HK).
  - (* SFrz *)
    assert (forall l, jb (hp s n) = Locked -> lvl (hp s n) = 1 -> ptr (hp s n) o = Some l ->
      match (if negb (is_open (hp s l)) then Some (crash s) else
        match m with
        | None => Some (modi (alloc (modi s l (set_fz (Orig n))) (leaf0 (ents (hp s l)) Open n)) n (set_jb (Swap0 o l (fresh s))))
        | Some m =>
            match get leb (ents (hp s l)) m, above leb m (ents (hp s l)) with
            | Some _, _ :: _ => Some (modi (alloc (alloc (modi s l (set_fz (Orig n))) (leaf0 (upto leb m (ents (hp s l))) (Hold n) n))
                (leaf0 (above leb m (ents (hp s l))) Open n)) n (set_jb (Split o l m (fresh s) (S (fresh s)))))
            | _, _ => None
            end
        end) with Some s' => Inv s' | None => True end) as Q.
    { intros l J L1 Hp. pose proof (locked_open leb HO _ _ _ _ HI FI n o l J L1 Hp) as Fo.
      unfold is_open. rewrite Fo. cbn [negb]. destruct m as [m|].
      - destruct (get leb (ents (hp s l)) m) as [v|] eqn:Gm; auto. destruct (above leb m (ents (hp s l))) as [|e0 r0] eqn:Ab; auto.
        rewrite <- Ab. assert (above leb m (ents (hp s l)) <> []) as Ab' by congruence.
        exact (inv_sys s _ _ _ I (ok_frz1 leb HO _ _ _ _ HI FI n o l m v J L1 Hp Gm Ab') HK).
      - exact (inv_sys s _ _ _ I (ok_frz0 leb HO _ _ _ _ HI FI n o l J L1 Hp) HK). }
    destruct (jb (hp s n)) eqn:J; destruct (ub (hp s n)) eqn:U; try discriminate;
      destruct (lvl (hp s n)) as [|[|ln]] eqn:L1; try discriminate;
      destruct (ptr (hp s n) o) as [l|] eqn:Hp; try discriminate;
      specialize (Q l eq_refl eq_refl eq_refl); revert H Q;
      match goal with |- ?a = _ -> match ?b with _ => _ end -> _ => change b with a; destruct a; [|discriminate] end;
      intros [= <-] Q; exact Q.
  - (* SIns *) eapply inv_ins; eauto.
  - (* SFull *)
    destruct (jb (hp s n)) as [| | | | |o c m low high| | | |] eqn:J; try discriminate. injection H as <-.
    pose proof (ok_full leb HO _ _ _ _ HI FI n o c m low high J) as Q. cbv zeta in Q.
    destruct (lvl (hp s n) =? 1); exact (inv_sys s _ _ _ I Q HK).
  - (* SThaw *)
    destruct (jb (hp s n)) as [| | | | | |o c m low high [|]| | |] eqn:J; try discriminate. injection H as <-.
    exact (inv_sys s _ _ _ I (ok_thaw leb HO _ _ _ _ HI FI n o c m low high J) HK).
  - (* SSwap *) eapply inv_swap; eauto.
  - (* STake *) eapply inv_take; eauto.
  - (* SCommit *)
    destruct (jb (hp s n)) as [| | | | | | | |c low high lns i|] eqn:J; try discriminate.
    destruct (Nat.eqb_spec (lvl (hp s n)) 1) as [L1|L1].
    + destruct i as [|[|[|[|i]]]].
      * injection H as <-. exact (inv_sys s _ _ _ I (ok_cthaw leb HO _ _ _ _ HI FI n c low high lns 0 low L1 J (or_introl (conj eq_refl eq_refl))) HK).
      * injection H as <-. exact (inv_sys s _ _ _ I (ok_cthaw leb HO _ _ _ _ HI FI n c low high lns 1 high L1 J (or_intror (conj eq_refl eq_refl))) HK).
      * destruct lns as [[a b]|]; injection H as <-.
        -- exact (inv_sys s _ _ _ I (ok_cfree leb HO _ _ _ _ HI FI n c low high a b 2 a L1 J (or_introl (conj eq_refl eq_refl))) HK).
        -- refine (inv_sys s _ _ _ I (ok_cend leb HO _ _ _ _ HI FI n c low high _ _ L1 J _) HK); lia.
      * destruct lns as [[a b]|]; injection H as <-.
        -- exact (inv_sys s _ _ _ I (ok_cfree leb HO _ _ _ _ HI FI n c low high a b 3 b L1 J (or_intror (conj eq_refl eq_refl))) HK).
        -- refine (inv_sys s _ _ _ I (ok_cend leb HO _ _ _ _ HI FI n c low high _ _ L1 J _) HK); lia.
      * destruct lns as [[a b]|]; injection H as <-;
          refine (inv_sys s _ _ _ I (ok_cend leb HO _ _ _ _ HI FI n c low high _ _ L1 J _) HK); lia.
    + injection H as <-. pose proof (ok_commit2 leb HO _ _ _ _ HI FI n c low high lns i L1 J) as Q. cbv zeta in Q.
      unfold commit_child. cbn [hp modi put with_hp].
      destruct (jb (upd (hp s) n (set_jb Poison (hp s n)) c)); exact (inv_sys s _ _ _ I Q HK).
  - (* SRoll *)
    destruct (jb (hp s n)) as [| | | | | | |o c m low high [tk|] lns| |] eqn:J; try discriminate.
    pose proof (ok_roll leb HO _ _ _ _ HI FI n o c m low high lns J) as Q. cbv zeta in Q. revert H.
    cbn [hp modi put with_hp]. destruct (lvl _ =? 1).
    + intros [= <-]. exact (inv_sys s _ _ _ I Q HK).
    + destruct (jb (upd (hp s) n (set_jb Locked (hp s n)) c)); intros [= <-]; exact (inv_sys s _ _ _ I Q HK).
  - (* SRem *)
    destruct (jb (hp s n)) eqn:J; try discriminate. destruct (slot_child (cells (hp s n)) j) as [c|] eqn:Hs; [|discriminate].
    destruct (retired (hp s c)) eqn:R; [|discriminate]. injection H as <-.
    exact (inv_sys s _ _ _ I (ok_rem leb HO _ _ _ _ HI FI n j c J Hs R) HK).
  - (* SUb *)
    destruct (jb (hp s n)) eqn:J; try discriminate. destruct (lvl (hp s n)) as [|[|ln]] eqn:L; try discriminate.
    destruct (ub (hp s n)) as [| |c] eqn:U; try discriminate.
    destruct (rev (cells (hp s n))) as [|[sk [j d]] rr] eqn:Rv; [discriminate|].
    destruct (retired (hp s c)) eqn:R; [|discriminate]. injection H as <-.
    assert (cells (hp s n) = rev rr ++ [(sk, (j, d))]) as Hcs.
    { rewrite <- (rev_involutive (cells (hp s n))), Rv. reflexivity. }
    exact (inv_sys s _ _ _ I (ok_ub leb HO _ _ _ _ HI FI n (rev rr) sk j c d J U Hcs R) HK).
  - (* SUbRem *)
    destruct (jb (hp s n)) eqn:J; try discriminate. injection H as <-.
    exact (inv_sys s _ _ _ I (ok_ubrem leb HO _ _ _ _ HI FI n _ J) HK).
  - (* SRet *)
    destruct (jb (hp s n)) eqn:J; try discriminate. destruct (cells (hp s n)) eqn:Hcs; [|discriminate].
    destruct (ub (hp s n)) as [| |c] eqn:U; try discriminate.
    destruct (retired (hp s c)) eqn:R; [|discriminate]. injection H as <-.
    exact (inv_sys s _ _ _ I (ok_ret leb HO _ _ _ _ HI FI n c J U Hcs R) HK).
  - (* SRSplit *)
    destruct (root s) as [n|] eqn:Rt; [|discriminate].
    destruct (jb (hp s n)) as [| | | | | | |o c m low high [tk|] lns| |] eqn:J; try discriminate. revert H.
    set (s1 := with_root _ _). assert (Inv s1) as I1.
    { destruct HK as [k]; [discriminate|].
      assert (Live leb (hp s) (Some n) n) as Lv by (exists k; now constructor).
      refine (inv_sys s _ _ _ I _ (fun _ => inhabits k)). rewrite Rt. exact (ok_top leb _ _ _ _ HI FI n 0 eq_refl Lv). }
    destruct (take s1 (fresh s) PUb b) as [s2|] eqn:E2; [|discriminate]. cbn [bind].
    pose proof (inv_take _ _ _ _ _ I1 E2) as I2.
    destruct (ins_low leb s2 (fresh s)) as [s3|] eqn:E3; [|discriminate]. cbn [bind].
    pose proof (inv_ins _ _ _ I2 E3) as I3. rewrite (i_err s3 I3). apply inv_swap; auto.
  - (* SRPop *)
    destruct (root s) as [n|] eqn:Rt; [|discriminate]. destruct (jb (hp s n)) eqn:J; try discriminate.
    destruct (lvl (hp s n)) as [|[|ln]] eqn:L; try discriminate. destruct (cells (hp s n)) eqn:Hcs; [|discriminate].
    destruct (ub (hp s n)) as [| |c] eqn:U; try discriminate. injection H as <-.
    assert (inhabited K) as HK' by (apply HK; discriminate). refine (inv_sys s _ _ _ I _ (fun _ => HK')). rewrite Rt.
    refine (ok_pop leb _ _ _ _ HI FI n c eq_refl J Hcs U _). rewrite L. discriminate.
  - (* SRNone *)
    destruct (root s) as [n|] eqn:Rt; [|discriminate]. destruct (jb (hp s n)) eqn:J; try discriminate.
    destruct (ub (hp s n)) as [| |c] eqn:U; try discriminate. injection H as <-.
    refine (inv_sys s _ _ _ I _ _); [|now intros []]. rewrite Rt.
    refine (ok_none leb _ _ _ _ HI FI n _ eq_refl J U _). destruct (lvl (hp s n)) as [|[|]]; auto.
Qed.

(** ** Steps of the calls *)
Lemma sound_ext lg (c c' : nat -> option (opk K V * nat)) : (forall t, c t <> None -> c' t = c t) -> sound leb lg c -> sound leb lg c'.
Proof.
  intros E S i e H. destruct (S i e H) as (t & q & b & A & B & C & D). exists t, q, b. repeat split; auto.
  rewrite E; auto. congruence.
Qed.
Lemma inv_op s t p p' : Inv s -> ops s t = Some p -> kind p' = kind p -> t0 p' = t0 p ->
  OpOK (hp s) (root s) (log s) t p' -> Inv (with_op s t p').
Proof.
  intros I E Ek Et O. constructor; cbn; try apply I.
  - intros u q Hq. unfold upd in Hq. destruct (Nat.eqb_spec u t) as [->|N]; [congruence|]. now apply I.
  - intros u Hu. unfold upd in Hu. destruct (u =? t) eqn:Eu; [discriminate|]. now apply I.
  - apply (sound_ext (log s) (calls (ops s))); [|apply I]. intros u _. unfold calls, upd.
    destruct (Nat.eqb_spec u t) as [->|N]; auto. now rewrite E, Ek, Et.
Qed.
Section one.
Context s t p (I : Inv s) (E : ops s t = Some p).
Notation h := (hp s).
Notation lg := (log s).
Hypothesis Np : match pc p with PDone _ _ => False | _ => True end.
Lemma OO : OpOK h (root s) lg t p.
Proof. exact (i_op s I t p E). Qed.
Lemma op_pend : pend lg t p.
Proof. pose proof (o_log _ _ _ _ _ OO) as L. destruct (pc p); auto; tauto. Qed.
Lemma op_goto c : at_pcs h (root s) lg (at_pc p c) -> match c with PClean | PDone _ _ => False | _ => True end ->
  Inv (with_op s t (at_pc p c)).
Proof.
  intros A B. apply (inv_op s t p); auto. constructor; auto; try apply OO.
  - cbn. intros ->. tauto.
  - cbn. destruct c; try apply op_pend. tauto.
Qed.
Lemma op_fin q : explains leb lg t (kind p) (t0 p) (length lg) q -> Inv (with_op s t (at_pc p (PDone q (length lg)))).
Proof. intros X. apply (inv_op s t p); auto. constructor; auto; try apply OO; [exact Logic.I|discriminate]. Qed.
Lemma fin_val v a : kind p = OPeek a -> Seen leb lg (t0 p) a v -> Inv (with_op s t (at_pc p (PDone (RVal v) (length lg)))).
Proof.
  intros Ek (i & Hi & Hv). apply op_fin. pose proof op_pend as P. unfold pend in P. rewrite Ek in *.
  split; [split; [apply OO|lia]|]. split; [apply P|]. eauto.
Qed.
Lemma fin_dup v a b : kind p = OIns a b -> Seen leb lg (t0 p) a (Some v) -> Inv (with_op s t (at_pc p (PDone (RIns false) (length lg)))).
Proof.
  intros Ek (i & Hi & Hv). apply op_fin. pose proof op_pend as P. unfold pend in P. rewrite Ek in *.
  split; [split; [apply OO|lia]|]. split; [apply P|]. exists i. split; auto. congruence.
Qed.
Lemma fin_rem v a cond : kind p = ORem a cond -> Seen leb lg (t0 p) a v -> (forall b, v = Some b -> cond b = false) ->
  Inv (with_op s t (at_pc p (PDone (RRem (rmd p)) (length lg)))).
Proof.
  intros Ek (i & Hi & Hv) Hc. apply op_fin. pose proof op_pend as P. unfold pend in P. rewrite Ek in *.
  destruct P as (P1 & P2 & P3). split; [split; [apply OO|lia]|]. destruct (rmd p).
  - destruct (P2 eq_refl) as (j & Hj & Ej). split.
    + exists j. split; auto. split; auto. eapply ev_len; eauto.
    + intros j' e Hj' B. split; eauto. eapply ev_len; eauto.
  - split; auto. exists i. split; auto. rewrite Hv. destruct v as [b|]; eauto.
Qed.
Lemma fin_rmd a cond : kind p = ORem a cond -> rmd p = true ->
  Inv (with_op s t (at_pc p (PDone (RRem true) (length lg)))).
Proof.
  intros Ek R. apply op_fin. pose proof op_pend as P. unfold pend in P. rewrite Ek in *.
  destruct P as (P1 & P2 & P3). split; [split; [apply OO|lia]|].
  destruct (P2 R) as (j & Hj & Ej). split.
  - exists j. split; auto. split; auto. eapply ev_len; eauto.
  - intros j' e Hj' B. split; eauto. eapply ev_len; eauto.
Qed.
Lemma no_root_seen a : root s = None -> Seen leb lg (t0 p) a None.
Proof.
  intros R. assert (abs leb lg a = None) as <-; [|apply seen_now, OO].
  destruct (abs leb lg a) eqn:A; auto. exfalso. destruct (h_abs2 _ _ _ _ _ (i_h s I) a) as (x & Hx & _); [congruence|].
  destruct (on_root_ex leb _ _ _ _ Hx). congruence.
Qed.

Lemma op_root s' : pc p = PStart -> step_op leb (ARoot t) s t p = Some s' -> Inv s'.
Proof.
  intros P H. cbn [step_op] in H. rewrite P in H. destruct (root s) as [n|] eqn:R.
  - injection H as <-. destruct (h_root _ _ _ _ _ (i_h s I) n R) as (_ & Ln & _).
    assert (forall q, near h (root s) lg q n) as N by (intros q; split; auto; now apply good_root).
    apply (inv_op s t p); auto. constructor; cbn; [apply OO| | |discriminate|].
    + intros x [<-|Hx]; [apply N|]. now apply (o_vis _ _ _ _ _ OO).
    + apply N.
    + apply op_pend.
  - destruct (kind p) as [a|a b|a cond] eqn:Ek; try discriminate; injection H as <-.
    + apply (fin_val None a); auto. now apply no_root_seen.
    + apply (fin_rem None a cond); auto; [now apply no_root_seen|discriminate].
Qed.

Lemma op_inst s' : pc p = PStart -> step_op leb (AInst t) s t p = Some s' -> Inv s'.
Proof.
  intros P H. cbn [step_op] in H. rewrite P in H. destruct (kind p) as [a|a b|a cond] eqn:Ek; try discriminate.
  destruct (root s) as [n|] eqn:R; [discriminate|]. injection H as <-.
  exact (inv_sys s _ _ _ I (ok_inst leb _ _ _ _ (i_h s I) (i_f s I) 0 R) (fun _ => inhabits a)).
Qed.
Lemma op_back x s' : pc p = PStart -> step_op leb (ABack t x) s t p = Some s' -> Inv s'.
Proof.
  intros P H. cbn [step_op] in H. rewrite P in H. destruct (existsb (Nat.eqb x) (vis p)) eqn:Ex; [|discriminate].
  injection H as <-. apply existsb_exists in Ex as (y & Hy & Ey). apply Nat.eqb_eq in Ey. subst y.
  apply op_goto; auto. cbn. exact (o_vis _ _ _ _ _ OO x Hy).
Qed.
Lemma op_afin s' : pc p = PClean -> step_op leb (AFin t) s t p = Some s' -> Inv s'.
Proof.
  intros P H. cbn [step_op] in H. rewrite P in H. injection H as <-.
  destruct (o_clean _ _ _ _ _ OO P) as (R & a & cond & Ek). eapply fin_rmd; eauto.
Qed.
Lemma op_retry s' : pc p = PClean -> step_op leb (ARetry t) s t p = Some s' -> Inv s'.
Proof.
  intros P H. cbn [step_op] in H. rewrite P in H. destruct (root s); [|discriminate].
  destruct (_ && locked _); [|discriminate]. injection H as <-. apply op_goto; auto. exact Logic.I.
Qed.
Lemma op_spur l s' : pc p = PLeaf l -> step_op leb (ASpur t) s t p = Some s' -> Inv s'.
Proof.
  intros P H. cbn [step_op] in H. rewrite P in H. destruct (kind p) as [a|a b|a cond] eqn:Ek; try discriminate.
  injection H as <-. apply op_fin. rewrite Ek. pose proof op_pend as Q. unfold pend in Q. rewrite Ek in Q.
  split; [split; [apply OO|lia]|]. apply Q.
Qed.
Lemma op_meta x s' : pc p = PNode x -> step_op leb (AMeta t) s t p = Some s' -> Inv s'.
Proof.
  intros P H. cbn [step_op] in H. rewrite P in H. injection H as <-.
  pose proof (o_pc _ _ _ _ _ OO) as Q. unfold at_pcs in Q. rewrite P in Q. apply op_goto; auto. cbn. auto.
Qed.
Lemma op_load x M s' : pc p = PMeta x M -> step_op leb (ALoad t) s t p = Some s' -> Inv s'.
Proof.
  intros P H. cbn [step_op] in H. rewrite P in H.
  pose proof (o_pc _ _ _ _ _ OO) as Q. unfold at_pcs in Q. rewrite P in Q. destruct Q as [[Lx Gx] Mx].
  pose proof (i_h s I) as HI. pose proof (i_f s I) as FI.
  pose proof (good_lt leb _ _ _ _ HI FI _ _ _ Gx) as Hx. pose proof (h_wf _ _ _ _ _ HI x Hx) as W.
  assert (forall c o, route leb (fst M) (okey (kind p)) = o -> ptr (h x) o = Some c -> Inv (with_op s t (at_pc p (PLoad x M c)))) as Go.
  { intros c o Ro Pc. apply op_goto; auto. split; [split; auto|]. cbn. destruct Mx as [Em|Em]; auto. left. split; auto.
    assert (nxt leb h x (okey_ p) = Some c) as En.
    { unfold nxt, nx. rewrite <- Pc. f_equal. unfold pos. rewrite <- Em. exact Ro. }
    split; [exact (good_nxt leb _ _ _ _ HI FI _ _ x c Gx En)|].
    apply nxt_kid in En. now destruct (kid_lvl leb _ _ _ _ HI x c Hx En). }
  assert ((forall u, ub (h x) <> UTo u) -> Seen leb lg (t0 p) (okey_ p) None) as Sn.
  { intros U. apply (good_none leb _ _ _ _ HI (t0 p) (okey_ p) x); auto; [apply OO|].
    unfold nxt, nx. rewrite pos_rts, (w_ub _ _ _ _ W U). cbn. destruct (ub (h x)) as [| |u]; auto. now destruct (U u). }
  destruct (route leb (fst M) (okey (kind p))) as [j|] eqn:Ro.
  - destruct (slot_child (cells (h x)) j) as [c|] eqn:Sc; injection H as <-.
    + exact (Go c (PSlot j) eq_refl Sc).
    + apply op_goto; auto. split; auto.
  - destruct (ub (h x)) as [| |c] eqn:U.
    + assert (Seen leb lg (t0 p) (okey_ p) None) as Sn' by (apply Sn; discriminate). unfold okey_ in Sn'.
      destruct (kind p) as [a|a b|a cond] eqn:Ek.
      * injection H as <-. eapply fin_val; eauto.
      * destruct (Nat.eqb_spec (lvl (h x)) 1) as [L1|L1]; injection H as <-; [|apply op_goto; auto; exact Logic.I].
        assert (~ closed (h x)) as Nc.
        { intros [C|C]; [destruct (w_over1 _ _ _ _ W C Lx) as [[u Hu] _]; congruence|].
          unfold retired in C. now rewrite L1, U in C. }
        assert (On leb h (root s) (okey_ p) x) as Ox by (destruct Gx; tauto).
        assert (Live leb h (root s) x) as Lv by (eexists; eauto).
        pose proof (ok_newleaf leb _ _ _ _ HI FI x 0 Lv L1 U) as Q. cbv zeta in Q.
        pose proof Q as (_ & _ & X).
        pose proof (inv_sys s _ _ _ I Q (i_k s I)) as I1.
        match type of I1 with Inv ?q => set (s1 := q) in * end.
        change (Inv (with_op s1 t (at_pc p (PLoad x M (fresh s))))).
        assert (ops s1 t = Some p) as E1 by exact E.
        pose proof (i_op s1 I1 t p E1) as O1.
        assert (hp s1 x = set_ub (h x) (UTo (fresh s))) as A1.
        { unfold s1. cbn [hp]. rewrite upd_eq, upd_ne by lia. reflexivity. }
        assert (hp s1 (fresh s) = leaf0 [] Open 0) as A2.
        { unfold s1. cbn [hp]. rewrite upd_ne, upd_eq by lia. reflexivity. }
        apply (inv_op s1 t p); auto. constructor; try apply O1; [|discriminate|cbn; apply op_pend].
        pose proof (o_pc _ _ _ _ _ O1) as Q1. unfold at_pcs in Q1. rewrite P in Q1. destruct Q1 as [N1 M1].
        split; [exact N1|]. destruct M1 as [M1|M1]; [left|right; exact M1]. split; [exact M1|]. split.
        -- apply (good_nxt leb _ _ _ _ (i_h s1 I1) (i_f s1 I1) _ _ x); [apply N1|].
           unfold nxt, nx. rewrite pos_rts, A1. cbn. rewrite (w_ub _ _ _ _ W) by (rewrite U; discriminate). reflexivity.
        -- rewrite A1, A2. exact L1.
      * injection H as <-. eapply fin_rem; eauto. discriminate.
    + assert (Seen leb lg (t0 p) (okey_ p) None) as Sn' by (apply Sn; discriminate). unfold okey_ in Sn'.
      destruct (kind p) as [a|a b|a cond] eqn:Ek; injection H as <-.
      * eapply fin_val; eauto.
      * apply op_goto; auto. exact Logic.I.
      * eapply fin_rem; eauto. discriminate.
    + assert (ptr (h x) PUb = Some c) as Pc by (cbn; now rewrite U).
      injection H as <-. exact (Go c PUb eq_refl Pc).
Qed.
Lemma ks_eqb_eq (a b : list (K * nat)) : ks_eqb leb a b = true -> a = b.
Proof.
  revert b. induction a as [|[x i] a IH]; intros [|[y j] b] H; cbn in H; try discriminate; auto.
  apply andb_true_iff in H as [H1 H2]. apply andb_true_iff in H1 as [H0 H1].
  apply (keqb_eq leb HO) in H0. apply Nat.eqb_eq in H1. rewrite (IH _ H2). congruence.
Qed.
Lemma meta_eqb_eq (a b : meta) : meta_eqb leb a b = true -> a = b.
Proof.
  destruct a as [a i], b as [b j]. unfold meta_eqb. cbn. intros H. apply andb_true_iff in H as [H1 H2].
  apply ks_eqb_eq in H1. apply Nat.eqb_eq in H2. congruence.
Qed.
Lemma op_val x M c s' : pc p = PLoad x M c -> step_op leb (AVal t) s t p = Some s' -> Inv s'.
Proof.
  intros P H. cbn [step_op] in H. rewrite P in H.
  pose proof (o_pc _ _ _ _ _ OO) as Q. unfold at_pcs in Q. rewrite P in Q. destruct Q as [Nx Mx].
  destruct (meta_eqb leb M (meta_of (h x))) eqn:Em.
  - apply meta_eqb_eq in Em. destruct Mx as [(_ & Gc & Lc)|Mx]; [|rewrite Em in Mx; lia].
    destruct (Nat.eqb_spec (lvl (h x)) 1) as [L1|L1]; injection H as <-.
    + apply op_goto; auto. split; [lia|exact Gc].
    + assert (near h (root s) lg p c) as Nc by (split; auto; destruct Nx; lia).
      apply (inv_op s t p); auto. constructor; cbn; [apply OO| | |discriminate|].
      * intros y [<-|Hy]; [exact Nc|]. now apply (o_vis _ _ _ _ _ OO).
      * exact Nc.
      * apply op_pend.
  - injection H as <-. apply op_goto; auto.
Qed.

(** The call writes to a leaf. *)
Lemma inv_write l e es b p' :
  Good h (root s) lg (t0 p) (okey_ p) l -> lvl (h l) = 0 -> fz (h l) = Open -> ret (h l) = false ->
  (b = true -> es = []) ->
  (forall k, In k (map fst es) -> k = okey_ p \/ In k (map fst (ents (h l)))) ->
  (forall k, k <> okey_ p -> get leb es k = get leb (ents (h l)) k /\ abs leb (e :: lg) k = abs leb lg k) ->
  get leb es (okey_ p) = abs leb (e :: lg) (okey_ p) ->
  by_call t e -> (abs leb lg (okey_ p) = get leb (ents (h l)) (okey_ p) -> fits (kind p) (abs leb lg) e) ->
  kind p' = kind p -> t0 p' = t0 p -> vis p' = vis p ->
  match pc p' with PClean | PDone _ _ => True | _ => False end ->
  (pc p' = PClean -> rmd p' = true /\ exists k cond, kind p' = ORem k cond) ->
  match pc p' with PDone q i => explains leb (e :: lg) t (kind p) (t0 p) i q | _ => pend (e :: lg) t p' end ->
  Inv (with_op (with_log (put s l (set_ents (h l) es b)) (e :: lg)) t p').
Proof.
  intros G L0 Fo Rt B1 B2 B3 B4 Be Ft Ek Et Ev Pp Cl Lp.
  pose proof (i_h s I) as HI. pose proof (i_f s I) as FI.
  pose proof (good_lt leb _ _ _ _ HI FI _ _ _ G) as Hl. pose proof (h_wf _ _ _ _ _ HI l Hl) as W.
  assert (On leb h (root s) (okey_ p) l) as Ol.
  { destruct G as [y H|y C L S|y C L N S|y z C L N G]; auto; try tauto. exfalso. destruct C as [C|C].
    - destruct (w_over0 _ _ _ _ W C L0). congruence.
    - unfold retired in C. rewrite L0 in C. congruence. }
  destruct (ok_write leb HO _ _ _ _ HI FI l (okey_ p) es b (e :: lg) Ol L0 Fo Rt B1 B2 B3 B4) as (H1 & H2 & X & _).
  pose proof (h_abs1 _ _ _ _ _ HI _ _ Ol L0) as Ab.
  assert (forall u, u <> t -> ~ by_call u e) as Nb by (intros u Nu D; destruct e; cbn in *; congruence).
  assert (forall x, near h (root s) lg p x -> near (upd h l (set_ents (h l) es b)) (root s) (e :: lg) p x) as Nn.
  { intros x. apply (near_step _ _ _ _ HI FI _ _ _ [e] X). apply OO. }
  constructor; cbn; auto.
  - apply I.
  - intros u q Hq. unfold upd in Hq at 1. destruct (Nat.eqb_spec u t) as [Eu|Nu].
    + injection Hq as <-. subst u. constructor; cbn.
      * rewrite Et. pose proof (o_t0 _ _ _ _ _ OO). lia.
      * rewrite Ev. intros x Hx. unfold near, okey_. rewrite Ek, Et. apply Nn. now apply (o_vis _ _ _ _ _ OO).
      * unfold at_pcs. destruct (pc p'); tauto.
      * exact Cl.
      * rewrite Ek, Et. exact Lp.
    + destruct (i_op s I u q Hq) as [B Vs Pq Cq L]. constructor; cbn; auto.
      * intros x Hx. apply (near_step _ _ _ _ HI FI _ _ _ [e] X); auto.
      * apply (pcs_step _ _ _ _ HI FI _ _ _ [e] X); auto.
      * specialize (Nb u Nu).
        assert (pend lg u q -> pend (e :: lg) u q) as Pe.
        { unfold pend. destruct (kind q) as [a|a v|a cond]; try (intros [? ?]; split; auto; now apply quiet_cons).
          intros (Q1 & Q2 & Q3). split; [intros; apply quiet_cons; auto|]. split.
          - intros R. destruct (Q2 R) as (i & Hi & Ei). exists i. split; auto. rewrite ev_cons_old; auto. eapply ev_len; eauto.
          - intros j a' Hj Ha. apply ev_cons in Hj as [[_ Hj]|[_ ->]]; [eauto|tauto]. }
        destruct (pc q); auto. now apply explains_cons.
  - intros u Hu. unfold upd in Hu at 1. destruct (Nat.eqb_spec u t) as [Eu|Nu]; [discriminate|].
    apply quiet_cons; auto. now apply I.
  - intros i a Hi. apply ev_cons in Hi as [[Li Hi]|[-> ->]].
    + destruct (i_sound s I i a Hi) as (u & q & bb & A1 & A2 & A3 & A4). exists u, q, bb. rewrite at_cons by lia.
      repeat split; auto. unfold calls, upd in *. destruct (Nat.eqb_spec u t) as [Eu|Nu]; auto. rewrite Ek, Et, <- A2. now rewrite Eu, E.
    + exists t, (kind p), (t0 p). rewrite at_cons, at_len by auto. split; auto. split; [|split; [apply OO|]].
      * unfold calls, upd. now rewrite Nat.eqb_refl, Ek, Et.
      * apply Ft. auto.
  - apply I.
Qed.
Lemma op_leaf l full s' : pc p = PLeaf l -> step_op leb (ALeaf t full) s t p = Some s' -> Inv s'.
Proof.
  intros P H. cbn [step_op] in H. rewrite P in H.
  pose proof (o_pc _ _ _ _ _ OO) as Q. unfold at_pcs in Q. rewrite P in Q. destruct Q as [L0 G].
  pose proof (good_leaf leb _ _ _ _ (i_h s I) (t0 p) (okey_ p) l (o_t0 _ _ _ _ _ OO) G L0) as Sg.
  pose proof (w_ret _ _ _ _ (h_wf _ _ _ _ _ (i_h s I) l (good_lt leb _ _ _ _ (i_h s I) (i_f s I) _ _ _ G))) as Wr.
  assert (Inv (with_op s t (at_pc p PStart))) as Back by (apply op_goto; auto; exact Logic.I).
  pose proof op_pend as Pd. unfold pend in Pd.
  destruct (kind p) as [a|a v|a cond] eqn:Ek.
  - injection H as <-. apply (fin_val _ a); auto. unfold okey_ in Sg. now rewrite Ek in Sg.
  - assert (okey_ p = a) as Ka by (unfold okey_; now rewrite Ek). cbn in H.
    destruct (ret (h l)) eqn:Rt; [injection H as <-; exact Back|]. cbn in H. unfold is_open in H.
    destruct (fz (h l)) eqn:Fo; cbn in H; try (injection H as <-; exact Back).
    destruct (get leb (ents (h l)) a) as [w|] eqn:Gt.
    + injection H as <-. apply (fin_dup w a v); auto. rewrite Ka, Gt in Sg. auto.
    + destruct full; injection H as <-; [exact Back|].
      apply (inv_write l (EIns t a v) ((a, v) :: ents (h l)) false); rewrite ?Ka; auto; try discriminate; try (rewrite <- Ka; exact G).
      * cbn. intros k [<-|Hk]; auto.
      * intros k Nk. cbn. rewrite (keqb_neq leb HO k a) by auto. auto.
      * cbn. now rewrite (keqb_refl leb HO).
      * reflexivity.
      * intros Ab. rewrite Ek. cbn. split; auto. congruence.
      * exact Logic.I.
      * cbn. rewrite Ek. split; [cbn; pose proof (o_t0 _ _ _ _ _ OO); lia|]. exists (length lg).
        pose proof (o_t0 _ _ _ _ _ OO). cbn. split; [lia|]. split; [apply ev_cons_new|].
        intros j e Hj Hb. apply ev_cons in Hj as [[_ Hj]|[-> _]]; auto. exfalso. eapply (proj2 Pd); eauto.
  - assert (okey_ p = a) as Ka by (unfold okey_; now rewrite Ek). cbn in H. unfold is_open in H.
    destruct (fz (h l)) eqn:Fo; cbn in H; try (injection H as <-; exact Back).
    destruct (get leb (ents (h l)) a) as [w|] eqn:Gt.
    + destruct (cond w) eqn:Cw.
      * assert (ret (h l) = false) as Rt. { destruct (ret (h l)); auto. rewrite Wr in Gt by auto. discriminate. }
        assert (forall p', kind p' = kind p -> t0 p' = t0 p -> vis p' = vis p ->
          match pc p' with PClean | PDone _ _ => True | _ => False end ->
          (pc p' = PClean -> rmd p' = true /\ exists k cond, kind p' = ORem k cond) ->
          match pc p' with PDone q i => explains leb (ERem t a :: lg) t (kind p) (t0 p) i q | _ => pend (ERem t a :: lg) t p' end ->
          Inv (with_op (with_log (put s l (set_ents (h l) (del leb (ents (h l)) a)
            (match del leb (ents (h l)) a with [] => true | _ => false end))) (ERem t a :: lg)) t p')) as Go.
        { intros p' G1 G2 G3 G4 G5 G6.
          apply (inv_write l (ERem t a) (del leb (ents (h l)) a) _); rewrite ?Ka; auto; try (rewrite <- Ka; exact G).
          -- unfold del. destruct (filter _ (ents (h l))); auto; discriminate.
          -- intros k Hk. right. apply in_map_iff in Hk as (x & <- & Hx). apply filter_In in Hx as [Hx _]. now apply in_map.
          -- intros k Nk. split.
             ++ apply (get_filter leb HO (fun k' => negb (keqb leb a k'))). rewrite (keqb_neq leb HO a k) by auto. reflexivity.
             ++ cbn. now rewrite (keqb_neq leb HO).
          -- cbn. rewrite (keqb_refl leb HO). apply (get_filter_none leb HO (fun k' => negb (keqb leb a k'))).
             now rewrite (keqb_refl leb HO).
          -- reflexivity.
          -- intros Ab. rewrite Ek. cbn. exists cond, w. repeat split; auto. congruence. }
        destruct Pd as (P1 & P2 & P3). pose proof (o_t0 _ _ _ _ _ OO) as Tp.
        assert (forall j e, ev_i (ERem t a :: lg) j = Some e -> by_call t e -> t0 p <= j) as Q3.
        { intros j e Hj Hb. apply ev_cons in Hj as [[_ Hj]|[-> _]]; eauto. }
        destruct (del leb (ents (h l)) a) eqn:D; injection H as <-.
        -- apply Go; auto; [exact Logic.I|intros _; split; [reflexivity|]; exists a, cond; reflexivity|].
           unfold pend. cbn. rewrite ?Ek. split; [discriminate|]. split; auto.
           intros _. exists (length lg). split; [exact Tp|apply ev_cons_new].
        -- apply Go; auto; [exact Logic.I|discriminate|]. cbn. rewrite Ek. split; [cbn; lia|]. split.
           ++ exists (length lg). cbn. split; [lia|apply ev_cons_new].
           ++ intros j e Hj Hb. split; [eauto|]. apply ev_len in Hj. exact Hj.
      * injection H as <-. apply (fin_rem (Some w) a cond); auto; [rewrite Ka, Gt in Sg; auto|]. intros ? [= <-]. auto.
    + injection H as <-. apply (fin_rem None a cond); auto; [rewrite Ka, Gt in Sg; auto|discriminate].
Qed.
End one.

Lemma inv_step a s s' : Inv s -> step leb a s = Some s' -> Inv s'.
Proof.
  intros I H. unfold step in H. destruct (err s); [discriminate|].
  assert (forall t p, ops s t = Some p -> step_op leb a s t p = Some s' -> Inv s') as Q.
  { intros t p E Hs.
    assert (match pc p with PDone _ _ => False | _ => True end) as Np.
    { destruct (pc p) eqn:P; auto. destruct a; cbn [step_op] in Hs; try rewrite P in Hs; discriminate. }
    destruct a; try discriminate Hs; destruct (pc p) as [| |y|y M|y M c|y| |] eqn:P; cbn [step_op] in Hs; try rewrite P in Hs; try discriminate Hs.
    - eapply (op_root s t p); rewrite ?P; eauto. cbn [step_op]. rewrite P. exact Hs.
    - eapply (op_inst s t p); rewrite ?P; eauto. cbn [step_op]. rewrite P. exact Hs.
    - eapply (op_meta s t p); rewrite ?P; eauto. cbn [step_op]. rewrite P. exact Hs.
    - eapply (op_load s t p); rewrite ?P; eauto. cbn [step_op]. rewrite P. exact Hs.
    - eapply (op_val s t p); rewrite ?P; eauto. cbn [step_op]. rewrite P. exact Hs.
    - eapply (op_leaf s t p); rewrite ?P; eauto. cbn [step_op]. rewrite P. exact Hs.
    - eapply (op_spur s t p); rewrite ?P; eauto. cbn [step_op]. rewrite P. exact Hs.
    - eapply (op_back s t p); rewrite ?P; eauto. cbn [step_op]. rewrite P. exact Hs.
    - eapply (op_afin s t p); rewrite ?P; eauto. cbn [step_op]. rewrite P. exact Hs.
    - eapply (op_retry s t p); rewrite ?P; eauto. cbn [step_op]. rewrite P. exact Hs. }
  destruct a; cbn [actor] in H; try (destruct (ops s t) as [p|] eqn:E; [|discriminate]; eapply Q; eauto; fail);
    try (eapply inv_step_sys; eauto; fail).
  destruct (ops s t) as [p|] eqn:E; [discriminate|]. injection H as <-.
  assert (quiet (log s) t) as Qt by now apply I.
  constructor; cbn; try apply I.
  - intros u q0 Hq. unfold upd in Hq. destruct (Nat.eqb_spec u t) as [Eu|Nu]; [|now apply I]. injection Hq as <-. subst u.
    constructor; cbn; auto.
    + intros x [].
    + discriminate.
    + unfold pend. cbn. destruct q; auto. split; auto. split; [discriminate|]. intros j a Hj Ha. exfalso. eapply Qt; eauto.
  - intros u Hu. unfold upd in Hu. destruct (u =? t) eqn:Eu; [discriminate|]. now apply I.
  - apply (sound_ext (log s) (calls (ops s))); [|apply I]. intros u Hu. unfold calls, upd in *.
    destruct (Nat.eqb_spec u t) as [Eu|Nu]; auto. rewrite Eu, E in Hu. tauto.
Qed.
Lemma inv_init : Inv init.
Proof.
  constructor; cbn; try tauto.
  - constructor; cbn; intros; try lia; try discriminate; try tauto.
    all: try match goal with H : On _ _ _ _ _ |- _ => apply on_root_ex in H as [? ?]; discriminate end.
    all: try match goal with H : Live _ _ _ _ |- _ => destruct H as [? H]; apply on_root_ex in H as [? ?]; discriminate end.
  - constructor; cbn; auto; try discriminate; try tauto. intros. constructor.
  - discriminate.
  - intros t _ i e H. unfold ev_i in H. destruct i; discriminate.
  - intros i e H. unfold ev_i in H. destruct i; discriminate.
Qed.
Lemma inv_run l : forall s s', Inv s -> run leb l s = Some s' -> Inv s'.
Proof.
  induction l as [|a l IH]; intros s s' I H; cbn in H; [congruence|].
  destruct (step leb a s) as [s1|] eqn:E; [|discriminate]. eapply IH; [|eauto]. eapply inv_step; eauto.
Qed.
End run.
