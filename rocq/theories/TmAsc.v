(** In runs without rollbacks, an iterator ascends, wherever it starts. *)
From Coq Require Import List Arith Bool Lia Sorted.
From Verif Require Import TcModel TcRoute TcSpec TcInv TcTree TcFrame TcFz TcExt TcSys TcKeep TcOps TcRun TiModel TiSpec TiInv TiConv TiList TiMove TiBlk TiStep TiSys TiExt TiTs TiCur TiSeek TiLoop TiJob TiWay TiMark TiOrd TiAsc LbFacts TmModel TmSpec.
Import ListNotations.

Section asc.
Context {K V : Type} (leb : K -> K -> bool) (HO : tord leb).
Notation SI := (SI leb).
Notation MI := (MI leb).
Notation AI := (AI leb).
Implicit Types (s : ls K V) (x : mit K V).

Definition going (p : @ipc K V) : Prop := match p with IFirst _ | IAt _ _ None => True | _ => run_pos p end.
Definition mok s x : Prop :=
  match mp x with MLoad _ n _ _ _ c => kidof s n c | MGo y => AI s y /\ going (ipos y) | _ => True end.

Lemma ai_go s (y : iter K V) : SI s -> MI s -> going (ipos y) -> AI s y -> AI s (istep leb s y) /\ going (ipos (istep leb s y)).
Proof.
  intros I M G A.
  assert (run_pos (ipos y) -> AI s (istep leb s y) /\ going (ipos (istep leb s y))) as Rn.
  { intros R. destruct (ai_run leb HO s y I M R A) as [A' R']. split; auto. destruct (ipos (istep leb s y)) as [| | | |c|c r [k|]| | | | |]; cbn in *; auto. }
  destruct A as [A Q]. destruct y as [p b o]. cbn [ipos out] in *.
  destruct p as [| | | |c|c r [k|]| | | | |]; try (apply Rn; exact G); cbn [ai_at] in Q; unfold istep; cbn [ipos it0 out].
  - destruct Q as [-> Lc]. split; [|exact Logic.I]. split; cbn; auto. split; [split; auto|]. split.
    + intros e He. apply in_sortk in He. split; [exact Logic.I|]. now apply ai_read.
    + apply srt_lt; auto; [apply (q_nd _ _ _ _ _ _ _ _ (LI leb s I))|]. now apply sortk_srt.
  - destruct Q as (Q1 & Q2 & Q3). destruct r as [|e r].
    + split; [|exact Logic.I]. split; cbn; auto.
    + destruct (ai_emit leb HO s o c c None e r A Q1 (proj1 Q1) Q2 Q3) as (E1 & E2). split; [split; auto|exact Logic.I].
Qed.
Lemma mok_step s x : SI s -> MI s -> mok s x -> mok s (mstep leb s x).
Proof.
  intros I M Q. unfold mok, mstep in *. destruct (mp x) as [|f n|f n Me r|f n Me r u c|y].
  - destruct (root (tc s)); cbn; auto. split; [split; cbn; auto|auto].
  - exact Logic.I.
  - destruct r as [|[k j] r].
    + destruct (ub (nd s n)) as [| |c] eqn:E; cbn [mp]; [| |now apply (ub_kid leb)];
        (destruct f as [|[[? ?] ?] f]; cbn; [split; [split; cbn; auto|auto]|auto]).
    + destruct (slot_child (cells (nd s n)) j) eqn:E; cbn; auto. eapply (slot_kid leb); eauto.
  - destruct (meta_eqb leb Me (meta_of (nd s n))); [|exact Logic.I]. destruct (Nat.eqb_spec (lvl (nd s n)) 1) as [L|L]; [|exact Logic.I]. cbn.
    split; [|exact Logic.I]. split; cbn; auto. split; auto. now apply (kid_leaf s n).
  - cbn. destruct Q as [A G]. now apply ai_go.
Qed.
Lemma mok_keep s s' x : SI s -> SI s' -> MI s' -> Pk leb s s' -> (forall n c, kidof s n c -> kidof s' n c) -> mok s x -> mok s' x.
Proof.
  intros I I' M' P Pd Q. unfold mok in *. destruct (mp x); auto. destruct Q as [A G]. split; auto. now apply (ai_keep leb HO s).
Qed.
Definition MA (s : tms K V) : Prop := SI (ml s) /\ MI (ml s) /\ forall i x, mis s i = Some x -> mok (ml s) x.
Lemma ma_step a (s s' : tms K V) : MA s -> msys leb a s = Some s' -> (forall n, a <> XL (LL (LUnm n))) -> MA s'.
Proof.
  intros (I & M & A) St Nu. destruct a as [a|i|i]; cbn [msys] in St.
  - destruct (lsstep leb a (ml s)) as [s1|] eqn:E; [|discriminate]. injection St as <-. pose proof (si_step leb HO _ _ _ I E) as I'.
    split; [exact I'|]. cbn [ml mis]. destruct a as [a|a|[i|i]]; cbn [lsstep] in E.
    + pose proof (mi_t leb HO a _ _ I M E) as M'. split; auto. intros i x Hx. apply (mok_keep (ml s)); auto; [now apply (pk_t leb HO a)| |eauto].
      intros n c. now apply (kid_t leb HO a).
    + assert (forall n, a <> LUnm n) as Nu' by (intros n ->; now apply (Nu n)).
      destruct (mi_l leb HO a _ _ I M E Nu') as (M' & Et & _). split; auto. intros i x Hx. apply (mok_keep (ml s)); auto; [now apply (pk_l leb HO a)| |eauto].
      unfold kidof. now rewrite Et.
    + destruct (its (ml s) i); [discriminate|]. injection E as <-. split; [constructor; apply M|]. exact A.
    + destruct (its (ml s) i); [|discriminate]. injection E as <-. split; [constructor; apply M|]. exact A.
  - destruct (mis s i) eqn:Ei; [discriminate|]. injection St as <-. split; [exact I|]. split; [exact M|]. cbn [ml mis].
    intros j x Hx. unfold upd in Hx. destruct (Nat.eqb_spec j i) as [->|N]; [|exact (A j x Hx)]. injection Hx as <-. exact Logic.I.
  - destruct (mis s i) as [x0|] eqn:Ei; [|discriminate]. injection St as <-. split; [exact I|]. split; [exact M|]. cbn [ml mis].
    intros j x Hx. unfold upd in Hx. destruct (Nat.eqb_spec j i) as [->|N]; [|exact (A j x Hx)]. injection Hx as <-. apply mok_step; eauto.
Qed.
Lemma ma_run l : forall s s' : tms K V, MA s -> mrun leb l s = Some s' -> (forall n, ~ In (XL (LL (LUnm n))) l) -> MA s'.
Proof.
  induction l as [|a l IH]; cbn; intros s s' R H Nu; [now injection H as <-|]. destruct (msys leb a s) as [s1|] eqn:E; [|discriminate].
  apply (IH s1); auto; [|intros n Hn; apply (Nu n); now right]. apply (ma_step a s); auto. intros n ->. apply (Nu n). now left.
Qed.
Lemma ma_init : MA minit.
Proof. split; [apply (si_init leb)|]. split; [apply mi_init|]. cbn. discriminate. Qed.
Lemma walk_ascending l (s : tms K V) i b y : mrun leb l minit = Some s -> (forall n, ~ In (XL (LL (LUnm n))) l) -> walked s i b y -> ascending leb (map fst y).
Proof.
  intros H Nu (x & Hx & _ & <-). destruct (ma_run l _ _ ma_init H Nu) as (_ & _ & A). specialize (A i x Hx). unfold mok, mout in *.
  destruct (mp x); cbn; auto. apply A.
Qed.
End asc.
