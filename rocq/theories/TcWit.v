(** A run that is not linearizable: a removal that has emptied the only leaf finds the root locked by
    an insertion that is about to replace it, starts over, and removes the entry just inserted. *)
From Coq Require Import List Arith Bool Lia.
From Verif Require Import TcModel TcRoute TcSpec TcOps TcRun TcLin TcLins.
Import ListNotations.

Definition go (t : nat) : list (act nat nat) := [ARoot t; AMeta t; ALoad t; AVal t; ALeaf t false].
Definition always (_ : nat) : bool := true.
(** Call 0 inserts the key 1. *)
Definition w0 : list (act nat nat) := [AInv 0 (OIns 1 10); AInst 0] ++ go 0.
(** Call 1 removes it and coalesces the root.  Call 2 begins to insert the key again, finds the root
    retired and locks it; call 1 starts over.  Call 2 removes the root, installs a new one and inserts
    the key. *)
Definition w2 : list (act nat nat) :=
  w0 ++ [AInv 1 (ORem 1 always)] ++ go 1 ++ [SLock 1 0; SRet 0; SUnlock 0]
  ++ [AInv 2 (OIns 1 20); ARoot 2; AMeta 2; ALoad 2; SLock 2 0; ARetry 1; SRNone; AInst 2] ++ go 2.
(** Call 1 removes that entry, too, and returns. *)
Definition w1 : list (act nat nat) := w2 ++ go 1 ++ [AFin 1].
(** Call 3 looks the key up. *)
Definition w3 : list (act nat nat) := w1 ++ [AInv 3 (OPeek 1)] ++ go 3.

Definition fin_of (l : list (act nat nat)) : st nat nat := match run Nat.leb l init with Some s => s | None => init end.
Lemma fin_run l : match run Nat.leb l init with Some _ => true | None => false end = true -> run Nat.leb l init = Some (fin_of l).
Proof. unfold fin_of. destruct (run Nat.leb l init); [auto|discriminate]. Qed.
Definition stat (s : st nat nat) t : option (@pcs nat nat) := match ops s t with Some p => Some (pc p) | None => None end.
Definition knd (s : st nat nat) t : option (opk nat nat) := match ops s t with Some p => Some (kind p) | None => None end.
Lemma stat_ret s t r e : stat s t = Some (PDone r e) -> returned s t r.
Proof. unfold stat. destruct (ops s t) as [p|] eqn:E; [|discriminate]. intros [= P]. exists p, e. auto. Qed.
Lemma stat_none s t : stat s t = None -> ops s t = None.
Proof. unfold stat. destruct (ops s t); [discriminate|auto]. Qed.
Lemma before_of l l' a b r e : match run Nat.leb l init with Some _ => true | None => false end = true ->
  stat (fin_of l) a = Some (PDone r e) -> stat (fin_of l) b = None -> before Nat.leb (l ++ l') a b.
Proof.
  intros R Ha Hb. exists l, l', (fin_of l). split; auto. split; [now apply fin_run|]. split; [exists r; eapply stat_ret; eauto|].
  now apply stat_none.
Qed.

Definition elts : list (nat * (opk nat nat * res nat)) :=
  [(0, (OIns 1 10, RIns true)); (1, (ORem 1 always, RRem true)); (2, (OIns 1 20, RIns true)); (3, (OPeek 1, RVal None))].
Lemma wit_run : run Nat.leb w3 init = Some (fin_of w3).
Proof. apply fin_run. vm_compute. reflexivity. Qed.
Lemma wit_elts x : In x elts -> knd (fin_of w3) (fst x) = Some (fst (snd x)) /\ returned (fin_of w3) (fst x) (snd (snd x)).
Proof.
  intros H. repeat destruct H as [<-|H]; try destruct H; (split; [vm_compute; reflexivity|]); eapply stat_ret; vm_compute; reflexivity.
Qed.
Lemma wit_begun : begun w3 = [0; 1; 2; 3].
Proof. reflexivity. Qed.
Lemma b01 : before Nat.leb w3 0 1.
Proof. apply (before_of w0 ([AInv 1 (ORem 1 always)] ++ go 1 ++ [SLock 1 0; SRet 0; SUnlock 0]
  ++ [AInv 2 (OIns 1 20); ARoot 2; AMeta 2; ALoad 2; SLock 2 0; ARetry 1; SRNone; AInst 2] ++ go 2 ++ go 1 ++ [AFin 1] ++ [AInv 3 (OPeek 1)] ++ go 3) 0 1 (RIns true) 1); vm_compute; reflexivity. Qed.
Lemma b02 : before Nat.leb w3 0 2.
Proof. apply (before_of w0 ([AInv 1 (ORem 1 always)] ++ go 1 ++ [SLock 1 0; SRet 0; SUnlock 0]
  ++ [AInv 2 (OIns 1 20); ARoot 2; AMeta 2; ALoad 2; SLock 2 0; ARetry 1; SRNone; AInst 2] ++ go 2 ++ go 1 ++ [AFin 1] ++ [AInv 3 (OPeek 1)] ++ go 3) 0 2 (RIns true) 1); vm_compute; reflexivity. Qed.
Lemma b03 : before Nat.leb w3 0 3.
Proof. apply (before_of w1 ([AInv 3 (OPeek 1)] ++ go 3) 0 3 (RIns true) 1); vm_compute; reflexivity. Qed.
Lemma b13 : before Nat.leb w3 1 3.
Proof. apply (before_of w1 ([AInv 3 (OPeek 1)] ++ go 3) 1 3 (RRem true) 4); vm_compute; reflexivity. Qed.
Lemma b23 : before Nat.leb w3 2 3.
Proof. apply (before_of w1 ([AInv 3 (OPeek 1)] ++ go 3) 2 3 (RIns true) 3); vm_compute; reflexivity. Qed.
Lemma not_lin s : run Nat.leb w3 init = Some s ->
  (forall x, In x elts -> knd s (fst x) = Some (fst (snd x)) /\ returned s (fst x) (snd (snd x))) -> ~ linearizable Nat.leb true w3 s.
Proof.
  intros wit_run wit_elts (o & [Zc Za Zo Zt Zr]).
  destruct (run_ops Nat.leb _ _ _ wit_run) as (_ & _ & A3 & _). rewrite wit_begun in A3.
  assert (forall x, In x o -> In x elts) as Hin.
  { intros [t [q r]] Hx. destruct (Zc _ _ _ Hx) as (p & Ep & Ek & Er).
    assert (In t [0; 1; 2; 3]) as Ht. { assert (ops s t <> None) as D by congruence. apply A3 in D as [D|D]; auto. cbn in D. tauto. }
    assert (exists y, In y elts /\ fst y = t) as (y & Hy & <-).
    { cbn in Ht. destruct Ht as [<-|[<-|[<-|[<-|[]]]]];
        [exists (0, (OIns 1 10, RIns true))|exists (1, (ORem 1 always, RRem true))|exists (2, (OIns 1 20, RIns true))|exists (3, (OPeek 1, RVal None))]; cbn; auto 6. }
    destruct (wit_elts y Hy) as [Hk Hr]. unfold knd in Hk. rewrite Ep in Hk. injection Hk as Hk. specialize (Er _ Hr).
    destruct y as [t' [q' r']]. cbn [fst snd] in *. subst. congruence. }
  assert (NoDup (map fst o)) as N.
  { rewrite <- (filter_ext (fun _ => true) (counts true)) in Zo by reflexivity. replace (filter (fun _ => true) o) with o in Zo; auto.
    clear. induction o; cbn; congruence. }
  assert (length o = 4) as L.
  { rewrite <- (map_length fst o). apply Nat.le_antisymm.
    - apply (NoDup_incl_length (l := map fst o) (l' := [0; 1; 2; 3])); auto. intros t Ht. apply in_map_iff in Ht as (x & <- & Hx).
      apply Hin in Hx. apply (in_map fst) in Hx. exact Hx.
    - apply (NoDup_incl_length (l := [0; 1; 2; 3])); [repeat constructor; cbn; lia|]. intros t Ht.
      assert (exists y, In y elts /\ fst y = t) as (y & Hy & <-).
      { change [0; 1; 2; 3] with (map fst elts) in Ht. apply in_map_iff in Ht as (y & E & Hy). eauto. }
      destruct (wit_elts y Hy) as [_ Hr]. destruct (Za _ _ Hr) as [q Hq]. apply (in_map fst) in Hq. exact Hq. }
  pose proof b01 as B01.
  pose proof b02 as B02.
  pose proof b03 as B03.
  pose proof b13 as B13.
  pose proof b23 as B23.
  assert (ForallOrdPairs (fun x y => ~ ((fst y = 0 /\ fst x <> 0) \/ (fst x = 3 /\ fst y <> 3))) o) as Zt'.
  { assert (forall x, In x o -> In (fst x) [0; 1; 2; 3]) as Hf by (intros x Hx; apply Hin in Hx; apply (in_map fst) in Hx; exact Hx).
    clear - Zt Hf B01 B02 B03 B13 B23. induction Zt as [|x o Hx Ho IH]; constructor.
    - rewrite Forall_forall in *. intros y Hy. specialize (Hx y Hy). pose proof (Hf x (or_introl eq_refl)) as F1. pose proof (Hf y (or_intror Hy)) as F2.
      intros [[E N]|[E N]]; apply Hx; rewrite E; [destruct F1 as [F|[F|[F|[F|[]]]]]|destruct F2 as [F|[F|[F|[F|[]]]]]]; rewrite <- F; auto; congruence.
    - apply IH. intros z Hz. apply Hf. now right. }
  clear - Hin N L Zt' Zr. destruct o as [|x1 [|x2 [|x3 [|x4 [|? ?]]]]]; try discriminate L.
  assert (In x1 elts) as H1 by (apply Hin; cbn; auto). assert (In x2 elts) as H2 by (apply Hin; cbn; auto).
  assert (In x3 elts) as H3 by (apply Hin; cbn; auto). assert (In x4 elts) as H4 by (apply Hin; cbn; auto).
  clear Hin L. inversion Zt' as [|? ? F1 Z1]; subst. inversion Z1 as [|? ? F2 Z2]; subst. inversion Z2 as [|? ? F3 _]; subst.
  rewrite Forall_forall in F1, F2, F3. pose proof (F1 x2 ltac:(cbn; auto)) as G12. pose proof (F1 x3 ltac:(cbn; auto)) as G13.
  pose proof (F1 x4 ltac:(cbn; auto)) as G14. pose proof (F2 x3 ltac:(cbn; auto)) as G23. pose proof (F2 x4 ltac:(cbn; auto)) as G24.
  pose proof (F3 x4 ltac:(cbn; auto)) as G34. clear F1 F2 F3 Z1 Z2 Zt'.
  assert (fst x1 <> fst x2 /\ fst x1 <> fst x3 /\ fst x1 <> fst x4 /\ fst x2 <> fst x3 /\ fst x2 <> fst x4 /\ fst x3 <> fst x4) as D.
  { cbn in N. inversion N as [|? ? N1 N']; subst. inversion N' as [|? ? N2 N'']; subst. inversion N'' as [|? ? N3 _]; subst.
    cbn in N1, N2, N3. repeat split; intros E; rewrite E in *; tauto. }
  clear N. destruct H1 as [<-|[<-|[<-|[<-|[]]]]]; destruct H2 as [<-|[<-|[<-|[<-|[]]]]]; try (cbn in *; lia);
  destruct H3 as [<-|[<-|[<-|[<-|[]]]]]; try (cbn in *; lia); destruct H4 as [<-|[<-|[<-|[<-|[]]]]]; try (cbn in *; lia); cbn in Zr.
  - decompose [and] Zr. discriminate.
  - decompose [and] Zr. discriminate.
Qed.
Lemma wit_not_lin : exists s, run Nat.leb w3 init = Some s /\ ~ linearizable Nat.leb true w3 s.
Proof. exists (fin_of w3). split; [exact wit_run|]. exact (not_lin _ wit_run wit_elts). Qed.
