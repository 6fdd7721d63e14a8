(** In runs in which no rolled-back split removes its mark: behind a leaf that is neither deleted nor marked
    there are only keys above those read from it. *)
From Coq Require Import List Arith Bool Lia.
From Verif Require Import TcModel TcRoute TcSpec TcInv TcTree TcFrame TcKeep TcJobs TcSplit TcFrz TcMove TcGrow TcFz TcFzs TcExt TcOps TcSys TcRun TiModel TiInv TiConv TiList TiMove TiBlk TiPush TiStep TiSysA TiSysB TiSysC TiSysD TiSysE TiSysF TiSys TiExt TiTs TiCur TiSeek TiJob TiWay TiMark.
Import ListNotations.

Section ord.
Context {K V : Type} (leb : K -> K -> bool) (HO : tord leb).
Notation klt := (klt leb).
Notation SI := (SI leb).
Notation MI := (MI leb).
Notation on s := (on leb (tc s)).
Implicit Types (s : ls K V) (e j : K * V) (k : K) (c x y z n L lo hi : nat).

(** Why [y] may hold [k]: it is marked or deleted, the way of [k] leads to it, or to the leaf it is a half of. *)
Definition W4 s y k : Prop := exists n o L om lo hi, lvl (hp (tc s) n) = 1 /\ jv (jb (hp (tc s) n)) = Some (o, L, om, lo, hi)
  /\ on s k L /\ y = sel leb om lo hi k.
Definition W s y k : Prop := mk s y = true \/ dl s y = true \/ on s k y \/ W4 s y k.

Section facts.
Context s (I : SI s) (M : MI s).
Notation h := (hp (tc s)).
Notation tp := (tpf h (sg s)).
Notation LI := (LI leb s I).
Notation HI := (HIs leb s I).
Notation FI := (i_f _ _ (proj1 I)).

Lemma mk_tp n L lo hi : tp n = Some (L, lo, hi) -> sg s n <> G0 -> mk s L = true.
Proof.
  intros T G. destruct (tp_inv _ _ _ _ _ _ T) as (L1 & [(o & om & J)|(lns & J & _)]).
  - eapply (m_mk _ _ M); eauto. eapply jt_jv; eauto.
  - eapply (m_mk _ _ M); eauto. rewrite J. reflexivity.
Qed.
Lemma ins_open n o L m lo hi b : n < fresh (tc s) -> lvl (h n) = 1 -> jb (h n) = Ins o L m lo hi b -> over (h n) = false.
Proof. intros Hn L1 J. apply (noover leb h _ _ _ HI n Hn); [lia|]. now rewrite J. Qed.
Lemma ins_wlt n o L m lo hi b k : n < fresh (tc s) -> lvl (h n) = 1 -> jb (h n) = Ins o L m lo hi b -> on s k L -> leb k m = false.
Proof.
  intros Hn L1 J O. pose proof (ins_open _ _ _ _ _ _ _ Hn L1 J) as Ov.
  assert (jv (jb (h n)) = Some (o, L, Some m, lo, hi)) as Jv by now rewrite J.
  pose proof (h_job _ _ _ _ _ HI _ _ _ _ _ _ Hn Jv Ov) as Jb.
  destruct (up leb HO h _ _ _ HI k _ _ _ _ _ _ Hn Jv (or_introl Ov) O) as (_ & P2 & _).
  apply (j_ins _ _ _ _ _ _ _ _ _ Jb); auto. now rewrite J.
Qed.

Lemma read y e : y < fresh (tc s) -> lvl (h y) = 0 -> dl s y = false -> In e (ents (h y)) -> W s y (fst e).
Proof.
  intros Hy Ly Dy He. destruct (q_rz _ _ _ _ _ _ _ _ LI y e Hy Ly Dy He) as (z & Oz & Lz & Ez & [<-|(n & L & lo & hi & T & D)]).
  { right. right. left. exact Oz. }
  destruct (q_blk _ _ _ _ _ _ _ _ LI _ _ _ _ T) as [Hn B].
  destruct D as [[-> D]|[-> D]].
  - left. apply (mk_tp _ _ _ _ T). assert (Live leb h (root (tc s)) z) as Lv by (eexists; eauto).
    destruct (half_live leb HO s I _ _ _ _ _ T D Lv) as ([-> | ->] & _); discriminate.
  - destruct (tp_inv _ _ _ _ _ _ T) as (L1 & [(o & om & J)|(lns & J & G)]).
    + right. right. right. exists n, o, L, om, lo, hi. split; auto. split; auto. split; auto.
      destruct om as [m|]; cbn.
      2:{ destruct (jb (h n)); cbn in J; try discriminate. injection J as <- <- <- <-. tauto. }
      assert (lo <> hi) as Nl by (apply (l_neq _ _ _ _ _ _ _ _ _ (h_hld _ _ _ _ _ HI _ _ _ _ _ _ Hn J)); discriminate).
      assert (low_ok leb (h lo) m \/ (exists b, jb (h n) = Ins o L m lo hi b)) as [[(v & Hv) Q]|(b & J')].
      { destruct (cj (jb (h n))) as [[m' lo']|] eqn:C.
        - left. pose proof (m_cut _ _ M _ _ _ L1 C) as Q. destruct (jb (h n)) as [| | | | | |? ? ? ? ? [|]| | |]; cbn in J, C; try discriminate;
            injection J as <- <- <- <- <-; injection C as <- <-; exact Q.
        - right. destruct (jb (h n)) as [| | | | | |? ? ? ? ? [|]| | |]; cbn in J, C; try discriminate. injection J as <- <- <- <- <-. eauto. }
      * destruct D as [-> | ->].
        -- now rewrite (Q e He).
        -- pose proof (b_sep _ _ _ _ _ _ _ _ _ _ _ B Nl (m, v) e Hv He) as S. unfold TiInv.klt in S. cbn in S. now rewrite S.
      * rewrite (ins_wlt _ _ _ _ _ _ _ (fst e) Hn L1 J' Oz). destruct D as [-> | ->]; auto. exfalso.
        pose proof (ins_open _ _ _ _ _ _ _ Hn L1 J') as Ov. pose proof (h_job _ _ _ _ _ HI _ _ _ _ _ _ Hn J Ov) as Jb.
        destruct (up leb HO h _ _ _ HI (fst e) _ _ _ _ _ _ Hn J (or_introl Ov) Oz) as (P1 & P2 & P3).
        assert (Rep leb h n (fst e) n L (sel leb (Some m) lo hi (fst e))) as R.
        { split; [constructor|]. exists o, (Some m), lo, hi. auto. }
        destruct (j_img _ _ _ _ _ _ _ _ _ Jb _ _ _ _ R) as (_ & _ & Q & _).
        { intros Ii. apply (j_ins _ _ _ _ _ _ _ _ _ Jb Ii); auto. }
        destruct (Q Lz) as [Q1 _].
        assert (In e (ents (h hi))) as Hh.
        { apply (get_in' leb HO). cbn in Q1. rewrite (ins_wlt _ _ _ _ _ _ _ (fst e) Hn L1 J' Oz) in Q1. rewrite Q1.
          apply (in_get leb HO); auto. apply (q_nd _ _ _ _ _ _ _ _ LI). }
        apply (klt_irr leb HO (fst e)). exact (b_sep _ _ _ _ _ _ _ _ _ _ _ B Nl e e He Hh).
    + exfalso. pose proof (b_fz _ _ _ _ _ _ _ _ _ _ _ B) as Fz.
      assert (jv (jb (h n)) = None) as Jn by now rewrite J.
      destruct (f_orig _ _ FI L n Lz Fz) as [Ov|(? & ? & ? & ? & Jv)]; [|congruence].
      apply (over_dead leb h _ _ _ HI L n Lz Fz Ov Jn). eexists; eauto.
Qed.

Lemma order y z k e : mk s y = false -> dl s y = false -> W s y k -> Nx (link s) y z -> dl s z = false -> In e (ents (h z)) -> klt k (fst e).
Proof.
  intros My Dy Wy N Dz He.
  destruct (nx_leaf leb s I _ _ N) as (Fy & Fz & Ly & Lz).
  assert (exists yk, on s k yk /\ lvl (h yk) = 0 /\ Fm tp y yk /\ (yk = y \/ exists n o om lo hi, lvl (h n) = 1 /\ jv (jb (h n)) = Some (o, yk, om, lo, hi)
     /\ n < fresh (tc s) /\ tp n = Some (yk, lo, hi) /\ y = sel leb om lo hi k)) as (yk & Ok & Lk & Fk & Dk).
  { destruct Wy as [?|[?|[O|(n & o & L & om & lo & hi & L1 & J & O & Y)]]]; try congruence.
    - exists y. split; auto. split; auto. split; [left; auto|]. auto.
    - assert (n < fresh (tc s)) as Hn by (apply (lvl1_lt _ _ FI); lia).
      pose proof (tp_of h (sg s) n _ _ _ _ _ L1 J) as T.
      destruct (q_blk _ _ _ _ _ _ _ _ LI _ _ _ _ T) as [_ B].
      exists L. split; auto. split; [apply (b_lv _ _ _ _ _ _ _ _ _ _ _ B)|]. split.
      + right. exists n, L, lo, hi. split; auto. right. split; auto. rewrite Y. apply sel_in.
      + right. exists n, o, om, lo, hi. auto. }
  destruct (q_rz _ _ _ _ _ _ _ _ LI z e Fz Lz Dz He) as (ze & Oe & Le & Ee & Fe).
  destruct (pt_ex leb _ _ _ _ _ _ _ LI y) as [cy Py]. destruct (pt_ex leb _ _ _ _ _ _ _ LI z) as [cz Pz].
  assert (Pt tp (sg s) yk cy) as Pk by (apply (fm_pt leb _ _ _ _ _ _ _ LI y yk k); eauto).
  assert (Pt tp (sg s) ze cz) as Pe by (apply (fm_pt leb _ _ _ _ _ _ _ LI z ze (fst e)); eauto).
  pose proof (q_acy _ _ _ _ _ _ _ _ LI) as Acy.
  destruct (pt_nx leb _ _ _ _ _ _ _ LI y z cy cz Py Pz N) as [<-|A].
  2:{ destruct (klt_dec leb k (fst e)) as [?|D]; auto. exfalso. destruct (klt_dec leb (fst e) k) as [D'|D'].
      - destruct (q_ord _ _ _ _ _ _ _ _ LI _ _ _ _ _ _ D' Oe Ok Le Lk Pe Pk) as [->|B]; [now apply Acy in A|]. apply (Acy cy). eapply nx_trans; eauto.
      - assert (k = fst e) as -> by (apply (t_anti leb HO); auto).
        assert (yk = ze) as -> by (eapply on_uniq; eauto; [apply HI|congruence]).
        rewrite (pt_fun leb _ _ _ _ _ _ _ LI _ _ _ Pk Pe) in A. now apply Acy in A. }
  destruct Py as [(n & L0 & lo & T & M1)|[-> N1]]; destruct Pz as [(n' & L' & lo' & T' & M')|[-> N2]].
  2:{ exfalso. eapply N2; eauto. unfold lmem, mem in *; destruct (sg s n); auto. }
  2:{ exfalso. eapply N1; eauto. unfold lmem, mem in *; destruct (sg s n'); auto. }
  2:{ now apply Acy in N. }
  assert (lmem (sg s n) L0 lo cy cy) as Mc by (unfold lmem, mem in *; destruct (sg s n); auto).
  assert (lmem (sg s n') L' lo' cy cy) as Mc' by (unfold lmem, mem in *; destruct (sg s n'); auto).
  destruct (bd leb _ _ _ _ _ _ _ LI _ _ _ _ _ _ _ _ _ T T' (lmem_mem _ _ _ _ _ Mc) (lmem_mem _ _ _ _ _ Mc')) as (<- & <- & <- & _). clear T' Mc'.
  destruct (q_blk _ _ _ _ _ _ _ _ LI _ _ _ _ T) as [Hn B]. pose proof (b_nx _ _ _ _ _ _ _ _ _ _ _ B) as X.
  assert (y <> L0) as N1.
  { intros ->. rewrite (mk_tp _ _ _ _ T) in My; [discriminate|]. intros G. rewrite G in M1. exact M1. }
  assert (z <> L0) as N2.
  { intros ->. apply (Acy y). eapply nx_trans; [exact N|].
    clear - X M1 N1.
    unfold lmem, mem in M1. destruct (sg s n); try tauto; destruct X as [X X'];
      repeat match goal with M : _ \/ _ |- _ => destruct M as [->|M] end; subst; try tauto; try (now constructor);
      try (apply (NxS _ _ lo); [exact X|now constructor]). }
  destruct (Nat.eq_dec y z) as [->|Ne]; [now apply Acy in N|].
  assert (y = lo /\ z = cy \/ y = cy /\ z = lo) as D.
  { apply lmem_mem in M1 as [?|[?|?]]; apply lmem_mem in M' as [?|[?|?]]; subst; tauto. }
  assert (lo <> cy) as Nl by (destruct D as [[-> ->]|[-> ->]]; auto).
  destruct D as [[-> ->]|[-> ->]].
  2:{ exfalso. apply (Acy lo). apply (nx_trans _ lo cy lo); auto.
      clear - X M1 M' N1 N2 Nl. unfold lmem, mem in *. destruct (sg s n); try tauto; destruct X as [X X']; try (destruct X' as [?|X']; [tauto|]; now constructor). }
  pose proof (b_sep _ _ _ _ _ _ _ _ _ _ _ B Nl) as Sp.
  destruct Dk as [->|(n' & o & om & lo' & hi' & L1 & J & Hn' & T' & Y)].
  - (* the low half holds the way *)
    destruct (tp_inv _ _ _ _ _ _ T) as (L1 & Dj).
    assert ((cut (jb (h n)) /\ fz (h lo) = Hold n) \/ exists o m b, jb (h n) = Ins o L0 m lo cy b) as [[Ct Fl]|(o & m & b & J)].
    { destruct Dj as [(o & om & J)|(lns & J & _)].
      - destruct (cj (jb (h n))) as [[m' lo']|] eqn:C.
        + destruct (low_hold leb s n m' lo' I L1 C) as (_ & _ & Fl).
          destruct (jb (h n)) as [| | | | | |? ? ? ? ? [|]| | |]; cbn in J, C; try discriminate;
            injection J as <- <- <- <- <-; injection C as <- <-; cbn; eauto.
        + destruct (jb (h n)) as [| | | | | |? ? ? ? ? [|]| | |]; cbn in J, C; try discriminate; injection J as <- <- <- <-; try congruence. subst. eauto.
      - left. pose proof (h_fz _ _ _ _ _ HI n Hn L1) as Q. rewrite J in *. split; [exact Logic.I|]. apply Q. lia. }
    + destruct (s_ne _ _ _ _ _ _ _ (proj2 I) _ _ _ _ T Ct) as (E1 & _).
      destruct (ents (h lo)) as [|j0 r0] eqn:El; [tauto|].
      assert (In j0 (ents (h lo))) as Hj by (rewrite El; now left). rewrite <- El in Sp.
      pose proof (h_wf _ _ _ _ _ HI lo Fy) as Wf.
      assert (over (h lo) = false) as Ov. { destruct (over (h lo)) eqn:Ov; auto. destruct (w_over0 _ _ _ _ Wf Ov Ly). congruence. }
      assert (on s (fst j0) lo) as Oj.
      { apply (h_ent _ _ _ _ _ HI); [eexists; eauto|now apply in_map|]. rewrite (w_wlo _ _ _ _ Wf Ov). exact Logic.I. }
      apply (apart leb HO h _ _ _ (fst j0) k (fst e) (fst e) lo ze HI); auto.
      intros <-. apply (klt_irr leb HO (fst e)). now apply Sp.
    + assert (jv (jb (h n)) = Some (o, L0, Some m, lo, cy)) as Jv by now rewrite J.
      pose proof (ins_open _ _ _ _ _ _ _ Hn L1 J) as Ov.
      assert (ze = L0) as ->.
      { destruct Fe as [<-|(n1 & L1' & lo1 & hi1 & T1 & D)].
        - exfalso. apply (open_half leb HO h _ _ _ HI n _ _ _ _ _ Hn Jv Ov). eexists; eauto.
        - assert (mem L1' lo1 hi1 cy) as M2 by (unfold mem; tauto).
          destruct (bd leb _ _ _ _ _ _ _ LI _ _ _ _ _ _ _ _ cy T T1 (or_intror (or_intror eq_refl)) M2) as (<- & <- & <- & <-).
          destruct D as [[E _]|[E _]]; auto. congruence. }
      apply (proj2 (s_in _ _ _ _ _ _ _ (proj2 I) _ _ _ _ _ _ _ L1 J)); auto.
  - assert (mem yk lo' hi' lo) as M2 by (unfold mem; right; rewrite Y; apply sel_in).
    destruct (bd leb _ _ _ _ _ _ _ LI _ _ _ _ _ _ _ _ lo T T' (or_intror (or_introl eq_refl)) M2) as (<- & -> & <- & <-).
    destruct om as [m|]; cbn in Y; [|congruence]. destruct (leb k m) eqn:Km; [|congruence].
    destruct (cj (jb (h n))) as [[m' lo']|] eqn:C.
    + destruct (m_cut _ _ M _ _ _ L1 C) as [(v & Hv) _].
      assert (m' = m /\ lo' = lo) as [-> ->].
      { destruct (jb (h n)) as [| | | | | |? ? ? ? ? [|]| | |]; cbn in J, C; try discriminate;
          injection J as <- <- <- <- <-; injection C as <- <-; auto. }
      pose proof (Sp _ _ Hv He) as Q. cbn in Q. unfold TiInv.klt in *.
      destruct (leb (fst e) k) eqn:Z; auto. rewrite (t_trans leb HO _ _ _ Z Km) in Q. exact Q.
    + exfalso. destruct (jb (h n)) as [| | | | | |? ? ? ? ? [|]| | |] eqn:Ej; cbn in J, C; try discriminate.
      injection J as <- <- <- <- <-. rewrite (ins_wlt _ _ _ _ _ _ _ k Hn L1 Ej Ok) in Km. discriminate.
Qed.
End facts.

(** ** Steps *)
Lemma w_t a s s' y k : SI s -> MI s -> tstep leb a s = Some s' -> y < fresh (tc s) -> lvl (hp (tc s) y) = 0 -> W s y k -> W s' y k.
Proof.
  intros I M H Hy Ly Wy. pose proof (si_t leb HO a s s' I H) as I'.
  destruct (tsg leb a s s' H) as (E & El & Ed & Em & _ & G & GR & Gb). pose proof (way_t leb HO a s s' I H) as Wy'.
  pose proof (ts_t leb HO a s s' I E) as T. pose proof (ts_x _ _ _ T) as X.
  unfold W. rewrite Em, Ed. destruct Wy as [?|[?|[O|(n & o & L & om & lo & hi & L1 & J & O & Y)]]]; auto.
  - destruct (Wy' k y O Ly) as [?|[(n & o & Gn & P)|(n & o & om & lo & hi & Hn & L1 & J & Pb & _)]]; auto.
    + right. left. destruct (m_gret _ _ M n o Gn) as (y' & P' & D). congruence.
    + left. eapply (m_mk _ _ M n); eauto; [eapply jt_jv; eauto|]. destruct Pb as [-> | ->]; discriminate.
  - pose proof (tp_of (hp (tc s)) (sg s) n _ _ _ _ _ L1 J) as Tp.
    destruct (q_blk _ _ _ _ _ _ _ _ (LI leb s I) _ _ _ _ Tp) as [Hn B].
    pose proof (proj1 (b_lv _ _ _ _ _ _ _ _ _ _ _ B)) as LL.
    pose proof (proj1 (b_lt _ _ _ _ _ _ _ _ _ _ _ B)) as FL.
    destruct (Wy' k L O LL) as [O'|[(n' & o' & Gn & P)|(n' & o' & om' & lo' & hi' & Hn' & L1' & J' & Pb & O')]].
    + destruct (proj1 (jf_step leb HO a _ _ (proj1 I) E) n) as [F| ->].
      * destruct (F _ _ _ _ _ Hn J) as [J'|(J' & Ov & Fz)].
        -- right. right. right. exists n, o, L, om, lo, hi. split; [now rewrite (x_lvl _ _ _ _ _ _ _ X)|auto].
        -- exfalso. rewrite (b_fz _ _ _ _ _ _ _ _ _ _ _ B) in Fz.
           apply (over_dead leb _ _ _ _ (HIs leb s' I') L n); auto; [now rewrite (x_lvl _ _ _ _ _ _ _ X)|]. eexists; eauto.
      * pose proof (Gb n L1 eq_refl) as G2. destruct (proj2 (s_rb _ _ _ _ _ _ _ (proj2 I) _ _ _ _ Tp) G2) as [D1 D2].
        right. left. rewrite Y. destruct (sel_in leb om lo hi k) as [-> | ->]; auto.
    + exfalso. destruct (gret_1 leb _ _ _ _ _ _ (proj2 I) n' o' Gn) as [Ln Lk].
      destruct (lk_free leb HO _ _ _ _ _ _ (proj2 I) _ (HIs leb s I) (i_f _ _ (proj1 I)) n' o' L Lk Ln P) as (_ & _ & Q).
      apply (Q _ _ _ _ Tp). now left.
    + pose proof (tp_of (hp (tc s)) (sg s) n' _ _ _ _ _ L1' J') as Tp'.
      destruct (bd leb _ _ _ _ _ _ _ (LI leb s I) _ _ _ _ _ _ _ _ L Tp Tp') as (<- & _ & <- & <-); [now left|now left|].
      rewrite J in J'. injection J' as <- <-. right. right. left. now rewrite Y.
Qed.
Lemma w_l s s' y k : tc s' = tc s -> (forall y, dl s y = true -> dl s' y = true) -> (forall y, mk s y = true -> mk s' y = true) -> W s y k -> W s' y k.
Proof. intros Et Dm Mm Wy. unfold W, W4 in *. rewrite Et. destruct Wy as [?|[?|[?|?]]]; auto. Qed.
Lemma nx_l a s s' u w : SI s -> lstep a s = Some s' -> Nx (link s) u w -> Nx (link s') u w.
Proof.
  intros I St N. pose proof (q_inj _ _ _ _ _ _ _ _ (LI leb s I)) as Inj.
  destruct a; cbn [lstep] in St; unfold is1, nd in St.
  - destruct (Nat.eqb_spec (lvl (hp (tc s) n)) 1) as [L|]; [|discriminate].
    destruct (jb (hp (tc s) n)) as [| | | | |o c0 m low high| | | |] eqn:J; try discriminate.
    destruct (sg s n) eqn:G; try discriminate. injection St as <-.
    assert (tpf (hp (tc s)) (sg s) n = Some (c0, low, high)) as T by (eapply tp_of; eauto; rewrite J; reflexivity).
    destruct (q_blk _ _ _ _ _ _ _ _ (LI leb s I) _ _ _ _ T) as [_ B]. pose proof (b_nx _ _ _ _ _ _ _ _ _ _ _ B) as Nb. rewrite G in Nb.
    apply push_nx; [tauto| |exact N]. apply (b_ne _ _ _ _ _ _ _ _ _ _ _ B).
  - destruct (Nat.eqb_spec (lvl (hp (tc s) n)) 1) as [L|]; [|discriminate].
    assert (forall L0 lo hi, tpf (hp (tc s)) (sg s) n = Some (L0, lo, hi) -> sg s n = GHi \/ sg s n = G0 ->
      Nx (link (with_sg (set_mk (push s L0 lo) L0 true) n GLo)) u w) as Q.
    { intros L0 lo hi T G. destruct (q_blk _ _ _ _ _ _ _ _ (LI leb s I) _ _ _ _ T) as [_ B]. pose proof (b_nx _ _ _ _ _ _ _ _ _ _ _ B) as Nb.
      apply push_nx; [|apply (b_ne _ _ _ _ _ _ _ _ _ _ _ B)|exact N]. destruct G as [G|G]; rewrite G in Nb; tauto. }
    destruct (jb (hp (tc s) n)) as [| | | |o c0 low|o c0 m low high| | | |] eqn:J; try discriminate;
      destruct (sg s n) eqn:G; try discriminate; injection St as <-; eapply Q; eauto; eapply tp_of; eauto; rewrite J; reflexivity.
  - repeat match type of St with context [match ?e with _ => _ end] => destruct e; try discriminate end; injection St as <-; exact N.
  - repeat match type of St with context [match ?e with _ => _ end] => destruct e; try discriminate end; injection St as <-; exact N.
  - repeat match type of St with context [match ?e with _ => _ end] => destruct e; try discriminate end; injection St as <-; exact N.
  - repeat match type of St with context [match ?e with _ => _ end] => destruct e; try discriminate end; injection St as <-; exact N.
  - repeat match type of St with context [match ?e with _ => _ end] => destruct e; try discriminate end; injection St as <-; exact N.
Qed.
End ord.
