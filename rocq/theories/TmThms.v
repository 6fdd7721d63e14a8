(** Theorems about iterators that look for the first leaf as the code does, with a run in which one yields
    entries that were removed before it was created. *)
From Coq Require Import List Arith Bool Lia.
From Verif Require Import TcModel TcRoute TcSpec TcWit TcLin TiModel TiSpec TiWit TiLoop RgModel RgSpec LbModel LbSpec TmModel TmSpec TmFacts TmAsc.
Import ListNotations.

Lemma lC57_tm_complete (K V : Type) (leb : K -> K -> bool) : tord leb ->
  forall (l : list (mact K V)) s i b e y k v, mrun leb l minit = Some s -> ~ went_on s i -> walked s i b y -> walked_out s i e ->
    throughout leb (log (tc (ml s))) b e k v -> In (k, v) y.
Proof.
  intros HO l s i b e y k v R N (x & Hx & <- & <-) (x' & z & Hx' & P & E) T. assert (x' = x) as -> by congruence.
  destruct (mr_run leb HO l _ _ (mr_init leb) R) as [_ A]. destruct (A i x Hx) as [_ Q].
  unfold mout. rewrite P in *. destruct Q as [E0 [_ _ Q]]; [destruct (on x) eqn:On; auto; destruct N; exists x; auto|].
  rewrite E, E0 in Q. destruct Q as (_ & Q & _). now apply Q.
Qed.
Lemma lC57_tm_sound (K V : Type) (leb : K -> K -> bool) : tord leb ->
  forall (l : list (mact K V)) s i b y k v, mrun leb l minit = Some s -> ~ went_on s i -> walked s i b y -> In (k, v) y ->
    sometime leb (log (tc (ml s))) b (length (log (tc (ml s)))) k v /\ forall e, walked_out s i e -> sometime leb (log (tc (ml s))) b e k v.
Proof.
  intros HO l s i b y k v R N (x & Hx & <- & <-) Hy.
  destruct (mr_run leb HO l _ _ (mr_init leb) R) as [_ A]. destruct (A i x Hx) as [_ Q].
  unfold mout in Hy. destruct (mp x) as [| | | |z] eqn:P; try (destruct Hy; fail).
  destruct Q as [E0 [_ O Q]]; [destruct (on x) eqn:On; auto; destruct N; exists x; auto|]. rewrite E0 in O, Q. split; [exact (O _ Hy)|].
  intros e (x' & z' & Hx' & P' & E). assert (x' = x) as -> by congruence. assert (z' = z) as -> by congruence.
  rewrite E in Q. destruct Q as (_ & _ & Q). exact (Q _ Hy).
Qed.

Lemma lC56_tm_ordered (K V : Type) (leb : K -> K -> bool) : tord leb ->
  forall (l : list (mact K V)) s i b y, mrun leb l minit = Some s -> no_rollback_m l -> walked s i b y -> ascending leb (map fst y).
Proof. intros HO l s i b y R N. exact (walk_ascending leb HO l s i b y R N). Qed.

(** ** The run *)
Definition go3 t b : list (act nat nat) := [ARoot t; AMeta t; ALoad t; AVal t; AMeta t; ALoad t; AVal t; AMeta t; ALoad t; AVal t; ALeaf t b].
Definition com n : list (act nat nat) := [SCommit n; SCommit n; SCommit n; SCommit n; SCommit n].
(** Six keys are inserted; the root is split: two leaf nodes, with 10..40 and 50, 60. *)
Definition q0 : list (lsact nat nat) :=
  map LT ([AInv 0 (OIns 10 1); AInst 0] ++ go 0 ++ [AInv 1 (OIns 20 2)] ++ go 1 ++ [AInv 2 (OIns 30 3)] ++ go 2 ++ [AInv 3 (OIns 40 4)] ++ go 3
     ++ [AInv 4 (OIns 60 6)] ++ go 4
     ++ [AInv 5 (OIns 50 5); ARoot 5; AMeta 5; ALoad 5; AVal 5; ALeaf 5 true; SLock 5 0; SFrz 0 PUb (Some 40)])
  ++ map LL [LPushHi 0; LPushLo 0] ++ map LT [SFull 0; SRSplit 1] ++ [LL (LDelO 0)] ++ map LT (com 0 ++ [SUnlock 4] ++ go2 5 false).
(** 70: the root is split again.  The root is now node 11, with the internal nodes 12 (10..40) and 13. *)
Definition q1 : list (lsact nat nat) :=
  map LT ([AInv 6 (OIns 70 7)] ++ go2 6 true ++ [SLock 6 6; SFrz 6 PUb (Some 50)]) ++ map LL [LPushHi 6; LPushLo 6]
  ++ map LT [SFull 6; SLock 6 4; STake 4 PUb 1; SFull 4; SRSplit 1; SCommit 4] ++ [LL (LDelO 6)] ++ map LT (com 6 ++ [SUnlock 11] ++ go3 6 false).
(** 35: below 12 there are now the leaf nodes 16 (leaf 14: 10, 20) and 17 (30, 35, 40). *)
Definition q2 : list (lsact nat nat) :=
  map LT ([AInv 7 (OIns 35 8)] ++ go3 7 true ++ [SLock 7 5; SFrz 5 PUb (Some 20)]) ++ map LL [LPushHi 5; LPushLo 5]
  ++ map LT [SFull 5; SLock 7 12; STake 12 PUb 1; SIns 12; SSwap 12; SUnlock 12] ++ [LL (LDelO 5)] ++ map LT (com 5 ++ go3 7 false).
(** The insertion of 32 finds 17 full, and 12 full.  12 is split: the lower half, node 22 with the leaf node
    16, is inserted in the root.  The thread is suspended before it replaces 12 by the higher half. *)
Definition q3 : list (lsact nat nat) :=
  map LT ([AInv 8 (OIns 32 9)] ++ go3 8 true ++ [SLock 8 17; SFrz 17 PUb (Some 30)]) ++ map LL [LPushHi 17; LPushLo 17]
  ++ map LT [SFull 17; SLock 8 12; STake 12 PUb 1; SFull 12; SLock 8 11; STake 11 (PSlot 0) 1; SIns 11].
(** 15: the leaf 14 is full, and the leaf node 16; it is replaced, below 22, by 26 (10) and 27 (15, 20).  The
    node 12 still has the leaf node 16 with the frozen leaf 14. *)
Definition q4 : list (lsact nat nat) :=
  map LT ([AInv 9 (OIns 15 1)] ++ go3 9 true ++ [SLock 9 16; SFrz 16 PUb (Some 10)]) ++ map LL [LPushHi 16; LPushLo 16]
  ++ map LT [SFull 16; SLock 9 22; STake 22 PUb 1; SIns 22; SSwap 22; SUnlock 22] ++ [LL (LDelO 16)] ++ map LT (com 16 ++ go3 9 false).
(** 10, 15 and 20 are removed: 26, 27 and 22 retire. *)
Definition q5 : list (lsact nat nat) :=
  map LT ([AInv 10 (ORem 10 always)] ++ go3 10 false ++ [SLock 10 26]) ++ [LL (LDelR 26 PUb)]
  ++ map LT ([SRet 26; SUnlock 26; SLock 10 22; SRem 22 0; SUnlock 22; AFin 10]
       ++ [AInv 11 (ORem 15 always)] ++ go3 11 false ++ [AInv 12 (ORem 20 always)] ++ go3 12 false ++ [SLock 12 27])
  ++ [LL (LDelR 27 PUb)] ++ map LT [SRet 27; SUnlock 27; SLock 12 22; SRet 22; SUnlock 22; AFin 12].
Definition qs : list (lsact nat nat) := q0 ++ q1 ++ q2 ++ q3 ++ q4 ++ q5.

Definition mfin (l : list (mact nat nat)) (s : tms nat nat) : tms nat nat := match mrun Nat.leb l s with Some s => s | None => s end.
Lemma mfin_run l s : match mrun Nat.leb l s with Some _ => true | None => false end = true -> mrun Nat.leb l s = Some (mfin l s).
Proof. unfold mfin. destruct (mrun Nat.leb l s); [auto|discriminate]. Qed.
Definition mobs (s : tms nat nat) i := match mis s i with Some x => Some (m0 x, mout x) | None => None end.
Lemma mobs_ok s i b y : mobs s i = Some (b, y) -> walked s i b y.
Proof. unfold mobs, walked. destruct (mis s i) as [x|]; [|discriminate]. intros [= A B]. exists x. auto. Qed.
(** A call of [ORem k] has returned true. *)
Definition removed (s : ls nat nat) t k : bool :=
  match ops (tc s) t with
  | Some p => match kind p, pc p with ORem k' _, PDone (RRem true) _ => k' =? k | _, _ => false end
  | None => false
  end.
Lemma removed_ok s t k : removed s t k = true -> (exists c, call s t (ORem k c)) /\ returned (tc s) t (RRem true).
Proof.
  unfold removed, call, returned. destruct (ops (tc s) t) as [p|] eqn:E; [|discriminate].
  destruct (kind p) as [| |k' c] eqn:Ek; try discriminate. destruct (pc p) as [| | | | | | |r e] eqn:Ep; try discriminate.
  destruct r as [| | |[]]; try discriminate. intros H. apply Nat.eqb_eq in H as ->. split; [exists c|]; exists p; eauto.
Qed.
(** The iterator finds no leaf below node 22, goes on with node 12, and yields what is in leaf 14. *)
Definition xa : list (mact nat nat) := map XL qs.
Definition xb : list (mact nat nat) := XNew 0 :: repeat (XStep 0) 16.
Definition ya := mfin xa minit.
Definition yb := mfin xb ya.
Lemma never (lg : list (ev nat nat)) b k v : b = length lg -> abs Nat.leb lg k = None -> ~ sometime Nat.leb lg b (length lg) k v.
Proof.
  intros -> A (j & Hj & B). assert (j = length lg) as -> by lia. unfold at_i in B. rewrite Nat.sub_diag in B. cbn in B. congruence.
Qed.
Lemma lC57_tm_refuted : exists (la lb : list (mact nat nat)) sa s t b k v,
  mrun Nat.leb la minit = Some sa /\ mrun Nat.leb lb sa = Some s
  /\ ((exists c, call (ml sa) t (ORem k c)) /\ returned (tc (ml sa)) t (RRem true)) /\ mis sa 0 = None
  /\ walked s 0 b [(k, v)] /\ ~ sometime Nat.leb (log (tc (ml s))) b (length (log (tc (ml s)))) k v.
Proof.
  exists xa, xb, ya, yb, 10, 12, 10, 1.
  split; [apply mfin_run; vm_compute; reflexivity|]. split; [apply mfin_run; vm_compute; reflexivity|].
  split; [apply removed_ok; vm_compute; reflexivity|]. split; [vm_compute; reflexivity|].
  split; [apply mobs_ok; vm_compute; reflexivity|]. apply never; vm_compute; reflexivity.
Qed.

(** The same with a range up to 25. *)
Definition za : list (lbact nat nat) := map BL qs.
Definition zb : list (lbact nat nat) := BNew 0 LNone (UIncl 25) :: repeat (BNext 0) 16.
Definition rfin (l : list (lbact nat nat)) (s : lbs nat nat) : lbs nat nat := match lbrun Nat.leb l s with Some s => s | None => s end.
Lemma rfin_run l s : match lbrun Nat.leb l s with Some _ => true | None => false end = true -> lbrun Nat.leb l s = Some (rfin l s).
Proof. unfold rfin. destruct (lbrun Nat.leb l s); [auto|discriminate]. Qed.
Definition robs (s : lbs nat nat) i := match lrs s i with Some r => Some (llo r, lup r, ly r) | None => None end.
Lemma robs_ok s i l u y : robs s i = Some (l, u, y) -> spanned s i l u y.
Proof. unfold robs, spanned. destruct (lrs s i) as [r|]; [|discriminate]. intros [= A B C]. exists r. auto. Qed.
Definition va := rfin za lbinit.
Definition vb := rfin zb va.
Lemma lC62_lb_refuted : exists (la lb : list (lbact nat nat)) sa s t k v,
  lbrun Nat.leb la lbinit = Some sa /\ lbrun Nat.leb lb sa = Some s
  /\ ((exists c, call (bl sa) t (ORem k c)) /\ returned (tc (bl sa)) t (RRem true)) /\ lrs sa 0 = None
  /\ spanned s 0 LNone (UIncl 25) [(k, v)]
  /\ ~ sometime Nat.leb (log (tc (bl s))) (length (log (tc (bl sa)))) (length (log (tc (bl s)))) k v.
Proof.
  exists za, zb, va, vb, 10, 10, 1.
  split; [apply rfin_run; vm_compute; reflexivity|]. split; [apply rfin_run; vm_compute; reflexivity|].
  split; [apply removed_ok; vm_compute; reflexivity|]. split; [vm_compute; reflexivity|].
  split; [apply robs_ok; vm_compute; reflexivity|]. apply never; vm_compute; reflexivity.
Qed.

(** The run of C57_example. *)
Definition trm (a : lsact nat nat) : mact nat nat :=
  match a with LI (TNew i) => XNew i | LI (TStep i) => XStep i | _ => XL a end.
Definition xc : list (mact nat nat) := map trm u2.
Definition mended (s : tms nat nat) i := match mis s i with Some x => match mp x with MGo y => match ipos y with IEnd e => negb (on x) && (e =? 7) | _ => false end | _ => false end | None => false end.
Lemma mended_ok s i : mended s i = true -> walked_out s i 7 /\ ~ went_on s i.
Proof.
  unfold mended, walked_out, went_on. destruct (mis s i) as [x|] eqn:E; [|discriminate]. destruct (mp x) as [| | | |y] eqn:P; try discriminate.
  destruct (ipos y) eqn:Q; try discriminate. intros H. apply andb_true_iff in H as [A B]. apply Nat.eqb_eq in B as ->. apply negb_true_iff in A.
  split; [exists x, y; auto|]. intros (x' & [= <-] & B). congruence.
Qed.
Lemma lC57_tm_ex : exists s, mrun Nat.leb xc minit = Some s /\ walked s 0 4 [(1, 10); (2, 20); (4, 40); (5, 50)] /\ (walked_out s 0 7 /\ ~ went_on s 0)
  /\ log (tc (ml s)) = [EIns 6 5 50; ERem 5 3; EIns 4 0 50; EIns 3 3 30; EIns 2 4 40; EIns 1 2 20; EIns 0 1 10].
Proof.
  exists (mfin xc minit). split; [apply mfin_run; vm_compute; reflexivity|]. split; [apply mobs_ok; vm_compute; reflexivity|].
  split; [apply mended_ok; vm_compute; reflexivity|vm_compute; reflexivity].
Qed.

Definition munm (a : mact nat nat) : bool := match a with XL (LL (LUnm _)) => true | _ => false end.
Lemma munm_of l : existsb munm l = false -> no_rollback_m l.
Proof. intros E n I. assert (existsb munm l = true) as X; [|congruence]. apply existsb_exists. eexists. split; [exact I|reflexivity]. Qed.
(** The iterator that starts in an old leaf ascends, too. *)
Definition xd : list (mact nat nat) := xa ++ XNew 0 :: repeat (XStep 0) 70.
Definition mgone (s : tms nat nat) i := match mis s i with Some x => on x | None => false end.
Lemma mgone_ok s i : mgone s i = true -> went_on s i.
Proof. unfold mgone, went_on. destruct (mis s i) as [x|]; [|discriminate]. eauto. Qed.
Lemma lC56_tm_ex : exists s, mrun Nat.leb xd minit = Some s /\ no_rollback_m xd /\ went_on s 0
  /\ walked s 0 12 [(10, 1); (20, 2); (30, 3); (35, 8); (40, 4); (50, 5); (60, 6); (70, 7)].
Proof.
  exists (mfin xd minit). split; [apply mfin_run; vm_compute; reflexivity|]. split; [apply munm_of; vm_compute; reflexivity|].
  split; [apply mgone_ok; vm_compute; reflexivity|apply mobs_ok; vm_compute; reflexivity].
Qed.
