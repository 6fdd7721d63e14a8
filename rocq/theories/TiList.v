(** The leaves in the linked list are in key order, but for splits that are under way. *)
From Coq Require Import List Arith Bool Lia.
From Verif Require Import TcModel TcRoute TcSpec TcInv TcTree TcFrame TcJobs TiModel TiInv TiConv.
Import ListNotations.

Section lst.
Context {K V : Type} (leb : K -> K -> bool) (HO : tord leb).
Notation heap := (nat -> obj K V).
Notation On := (On leb).
Notation Live := (Live leb).
Notation klt := (klt leb).
Notation LInv := (LInv leb).
Context (h : heap) (f : nat) (r : option nat) (nx : nat -> option nat) (dl : nat -> bool) (sg : nat -> stg)
  (tp : nat -> option (nat * nat * nat)) (LI : LInv h f r nx dl sg tp).
Notation Nx := (Nx nx).
Notation lm n L lo hi y := (lmem (sg n) L lo hi y).

Lemma lmem_mem g L lo hi y : lmem g L lo hi y -> mem L lo hi y.
Proof. unfold lmem, mem. destruct g; tauto. Qed.
Lemma lmem_dec g L lo hi y : lmem g L lo hi y \/ ~ lmem g L lo hi y.
Proof.
  unfold lmem, mem. destruct g; auto; destruct (Nat.eq_dec y L); destruct (Nat.eq_dec y lo); destruct (Nat.eq_dec y hi); tauto.
Qed.
Lemma bounded (P : nat -> Prop) : (forall n, P n \/ ~ P n) -> forall m, (exists n, n < m /\ P n) \/ (forall n, n < m -> ~ P n).
Proof.
  intros D m. induction m as [|m IH]; [right; lia|]. destruct IH as [(n & H & P')|IH]; [left; exists n; split; auto; lia|].
  destruct (D m) as [P'|P']; [left; exists m; auto|]. right. intros n Hn. destruct (Nat.eq_dec n m) as [->|]; auto. apply IH. lia.
Qed.
Lemma blk_of n L lo hi : tp n = Some (L, lo, hi) -> Blk leb h r f nx dl (sg n) n L lo hi.
Proof. intros T. apply (q_blk _ _ _ _ _ _ _ _ LI). auto. Qed.
Lemma inblk y : (exists n L lo hi, tp n = Some (L, lo, hi) /\ lm n L lo hi y)
  \/ (forall n L lo hi, tp n = Some (L, lo, hi) -> ~ lm n L lo hi y).
Proof.
  destruct (bounded (fun n => match tp n with Some (L, lo, hi) => lm n L lo hi y | None => False end)) with (m := f) as [(n & _ & H)|H].
  - intros n. destruct (tp n) as [[[L lo] hi]|]; auto. apply lmem_dec.
  - left. destruct (tp n) as [[[L lo] hi]|] eqn:T; [|tauto]. exists n, L, lo, hi. auto.
  - right. intros n L lo hi T. destruct (q_blk _ _ _ _ _ _ _ _ LI _ _ _ _ T) as [Hn _]. specialize (H n Hn). now rewrite T in H.
Qed.

Notation Pt := (Pt tp sg).
Lemma pt_ex y : exists c, Pt y c.
Proof. destruct (inblk y) as [(n & L & lo & hi & T & M)|H]; [exists hi; left; eauto|exists y; right; auto]. Qed.
Lemma bd n n' L lo hi L' lo' hi' y : tp n = Some (L, lo, hi) -> tp n' = Some (L', lo', hi') -> mem L lo hi y -> mem L' lo' hi' y ->
  n = n' /\ L = L' /\ lo = lo' /\ hi = hi'.
Proof. intros T T' M M'. pose proof (q_bd _ _ _ _ _ _ _ _ LI _ _ _ _ _ _ _ _ _ T T' M M') as <-. rewrite T in T'. now injection T'. Qed.
Lemma pt_fun y c c' : Pt y c -> Pt y c' -> c = c'.
Proof.
  intros [(n & L & lo & T & M)|[-> N]] [(n' & L' & lo' & T' & M')|[-> N']]; auto.
  - eapply bd; eauto; eapply lmem_mem; eauto.
  - exfalso. eapply N'; eauto.
  - exfalso. eapply N; eauto.
Qed.
(** Links within a split, out of it and into it. *)
Lemma blk_reach n L lo hi y : tp n = Some (L, lo, hi) -> lm n L lo hi y -> y = hi \/ Nx y hi.
Proof.
  intros T M. destruct (blk_of _ _ _ _ T) as [_ _ _ _ G X _ _ _ _ _ _]. unfold lmem, mem in M. destruct (sg n); try tauto.
  - destruct X as [X _]. destruct M as [->| ->]; auto. right. now constructor.
  - destruct X as [X [->|X']]; destruct M as [->|[->| ->]]; auto; right; try (now constructor). eapply NxS; [eauto|now constructor].
  - destruct X as [X [->|X']]; destruct M as [->|[->| ->]]; auto; right; try (now constructor). eapply NxS; [eauto|now constructor].
  - destruct X as [X [->|X']]; destruct M as [->|[->| ->]]; auto; right; try (now constructor). eapply NxS; [eauto|now constructor].
  - destruct X as [X [->|X']]; destruct M as [->|[->| ->]]; auto; right; try (now constructor). eapply NxS; [eauto|now constructor].
Qed.
Lemma blk_out n L lo hi y w : tp n = Some (L, lo, hi) -> lm n L lo hi y -> ~ lm n L lo hi w -> Nx y w -> Nx hi w.
Proof.
  intros T M Nw H. destruct (blk_of _ _ _ _ T) as [_ _ _ _ G X _ _ _ _ _ _]. unfold lmem, mem in M, Nw.
  assert (forall a b, nx a = Some b -> Nx a w -> w <> b -> Nx b w) as S.
  { intros a b E1 E2 E3. destruct (nx_succ nx a b w E1 E2); [congruence|auto]. }
  destruct (sg n); try tauto; destruct X as [X X']; try destruct X' as [->|X'];
    repeat match goal with M : _ \/ _ |- _ => destruct M as [->|M] end; subst; auto;
    try (apply (S L); auto; fail); try (apply (S lo); auto; fail); try (apply (S lo); auto; apply (S L); auto; fail).
Qed.
Lemma pt_nx y w cy cw : Pt y cy -> Pt w cw -> Nx y w -> cy = cw \/ Nx cy cw.
Proof.
  intros [(n & L & lo & T & M)|[-> N]] Hw H.
  - destruct (lmem_dec (sg n) L lo cy w) as [Mw|Nw].
    + left. apply (pt_fun w); auto. left. eauto.
    + apply (blk_out n L lo cy y w) in H; auto. destruct Hw as [(n' & L' & lo' & T' & M')|[-> N']]; auto.
      destruct (blk_reach _ _ _ _ _ T' M') as [->|R]; auto. right. eapply nx_trans; eauto.
  - destruct Hw as [(n' & L' & lo' & T' & M')|[-> N']]; auto.
    destruct (blk_reach _ _ _ _ _ T' M') as [->|R]; auto. right. eapply nx_trans; eauto.
Qed.
Context (lg : list (ev K V)) (HI : HInv leb h f r lg).
Lemma fm_pt y z k c : Fm tp y z -> On h r k z -> (exists w, Nx y w \/ Nx w y) -> Pt y c -> Pt z c.
Proof.
  intros [->|(n & L & lo & hi & T & D)] Hz (w & Hw) P; auto.
  pose proof (blk_of _ _ _ _ T) as B. pose proof (b_g _ _ _ _ _ _ _ _ _ _ _ B) as G. pose proof (b_nx _ _ _ _ _ _ _ _ _ _ _ B) as X.
  assert (forall u, unl nx u -> u <> y) as U. { intros u Hu ->. destruct Hw as [Hw|Hw]; [eapply nx_unl_l|eapply nx_unl_r]; eauto. }
  assert (lm n L lo hi y /\ lm n L lo hi z) as [M1 M2].
  { destruct D as [[-> D]|[-> D]].
    - assert (sg n <> G0 /\ sg n <> GHi) as [N1 N2].
      { split; intros E; destruct (b_nl _ _ _ _ _ _ _ _ _ _ _ B) as [A1 A2]; auto; destruct D as [->| ->]; [apply A1|apply A2|apply A1|apply A2]; now exists k. }
      destruct G as [G|[[G _]|[G|[G|[G|G]]]]]; try tauto; rewrite G; unfold lmem, mem; tauto.
    - destruct G as [G|[[G _]|[G|[G|[G|G]]]]]; rewrite G in *; unfold lmem, mem in *; try tauto.
      + exfalso. destruct X as [X1 X2]. destruct D as [->| ->]; [apply (U lo)|apply (U hi)]; auto.
      + destruct X as [X1 X2]. destruct D as [->| ->]; [exfalso; apply (U lo); auto|auto]. }
  assert (Pt y hi) as Q by (left; eauto). rewrite (pt_fun y c hi P Q). left. eauto.
Qed.
(** Along the list keys increase, but a split leaf has the keys of both halves. *)
Lemma along y w j k : dl y = false -> dl w = false -> Nx y w -> In j (ents (h y)) -> In k (ents (h w)) -> klt (fst k) (fst j) ->
  In k (ents (h y)).
Proof.
  intros Dy Dw N Hj Hk L.
  assert (y < f /\ lvl (h y) = 0) as [Fy Ly]. { inversion N as [a b E|a b c E]; subst; apply (q_lt _ _ _ _ _ _ _ _ LI) in E; tauto. }
  assert (w < f /\ lvl (h w) = 0) as [Fw Lw].
  { clear Hj Dy Fy Ly. induction N as [a b E|a b c E]; auto. apply (q_lt _ _ _ _ _ _ _ _ LI) in E; tauto. }
  destruct (q_rz _ _ _ _ _ _ _ _ LI y j Fy Ly Dy Hj) as (zj & Oj & Lj & _ & Fj).
  destruct (q_rz _ _ _ _ _ _ _ _ LI w k Fw Lw Dw Hk) as (zk & Ok & Lk & _ & Fk).
  destruct (pt_ex y) as [cy Py]. destruct (pt_ex w) as [cw Pw].
  assert (Pt zj cy) as Pj by (apply (fm_pt y zj (fst j)); eauto).
  assert (Pt zk cw) as Pk by (apply (fm_pt w zk (fst k)); eauto).
  pose proof (q_acy _ _ _ _ _ _ _ _ LI) as Acy.
  assert (cy = cw) as <-.
  { destruct (pt_nx y w cy cw Py Pw N) as [?|A]; auto. exfalso.
    destruct (q_ord _ _ _ _ _ _ _ _ LI _ _ _ _ _ _ L Ok Oj Lk Lj Pk Pj) as [->|B]; [now apply Acy in A|]. apply (Acy cy). eapply nx_trans; eauto. }
  destruct Py as [(n & L0 & lo & T & M)|[-> N1]]; destruct Pw as [(n' & L' & lo' & T' & M')|[-> N2]].
  - assert (lm n L0 lo cy cy) as Mc by (unfold lmem, mem in *; destruct (sg n); auto).
    assert (lm n' L' lo' cy cy) as Mc' by (unfold lmem, mem in *; destruct (sg n'); auto).
    destruct (bd _ _ _ _ _ _ _ _ _ T T' (lmem_mem _ _ _ _ _ Mc) (lmem_mem _ _ _ _ _ Mc')) as (<- & <- & <- & _).
    pose proof (blk_of _ _ _ _ T) as B. pose proof (b_nx _ _ _ _ _ _ _ _ _ _ _ B) as X.
    destruct (Nat.eq_dec y L0) as [->|N1].
    + assert (sg n <> GDel) as Ng. { intros G. apply (b_dL _ _ _ _ _ _ _ _ _ _ _ B) in G. congruence. }
      apply (b_cont _ _ _ _ _ _ _ _ _ _ _ B Ng). apply lmem_mem in M' as [->|[->| ->]]; auto. now apply Acy in N.
    + assert (w <> L0) as N2.
      { intros ->. apply (Acy y). eapply nx_trans; [exact N|].
        clear - X M N1.
        unfold lmem, mem in M. destruct (sg n); try tauto; destruct X as [X X'];
          repeat match goal with M : _ \/ _ |- _ => destruct M as [->|M] end; subst; try tauto; try (now constructor);
          try (apply (NxS _ _ lo); [exact X|now constructor]). }
      destruct (Nat.eq_dec y w) as [->|Ne]; [now apply Acy in N|].
      assert (y = lo /\ w = cy \/ y = cy /\ w = lo) as D.
      { apply lmem_mem in M as [?|[?|?]]; apply lmem_mem in M' as [?|[?|?]]; subst; tauto. }
      assert (lo <> cy) as Nl by (destruct D as [[-> ->]|[-> ->]]; auto).
      destruct D as [[-> ->]|[-> ->]].
      * exfalso. pose proof (b_sep _ _ _ _ _ _ _ _ _ _ _ B Nl j k Hj Hk) as S. unfold TiInv.klt in *.
        apply (leb_flip leb HO) in S. congruence.
      * exfalso. apply (Acy lo). apply (nx_trans _ lo cy lo); auto.
        clear - X M M' N1 N2 Nl. unfold lmem, mem in *. destruct (sg n); try tauto; destruct X as [X X']; try (destruct X' as [?|X']; [tauto|]; now constructor).
  - exfalso. eapply N2; eauto. unfold lmem, mem in *; destruct (sg n); auto.
  - exfalso. eapply N1; eauto. unfold lmem, mem in *; destruct (sg n'); auto.
  - now apply Acy in N.
Qed.
End lst.
