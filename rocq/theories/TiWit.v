(** A run in which an iterator yields a key twice: a split is rolled back while the iterator is
    between the leaf that was to be split and its lower half. *)
From Coq Require Import List Arith Bool.
From Verif Require Import TcModel TcSpec TcWit TiModel TiSpec.
Import ListNotations.

Definition ts (n : nat) : list (lsact nat nat) := repeat (LI (TStep 0)) n.
Definition go2 t b : list (act nat nat) := [ARoot t; AMeta t; ALoad t; AVal t; AMeta t; ALoad t; AVal t; ALeaf t b].
(** The keys 1, 2, 4 are inserted.  The insertion of 3 finds the leaf full, and the leaf node too: the
    root is split.  Then there are leaves with 1, 2 and with 3, 4 below two leaf nodes. *)
Definition u0 : list (lsact nat nat) :=
  map LT ([AInv 0 (OIns 1 10); AInst 0] ++ go 0 ++ [AInv 1 (OIns 2 20)] ++ go 1 ++ [AInv 2 (OIns 4 40)] ++ go 2
     ++ [AInv 3 (OIns 3 30); ARoot 3; AMeta 3; ALoad 3; AVal 3; ALeaf 3 true; SLock 3 0; SFrz 0 PUb (Some 2)])
  ++ [LL (LPushHi 0); LL (LPushLo 0); LT (SFull 0); LT (SRSplit 1); LL (LDelO 0)]
  ++ map LT ([SCommit 0; SCommit 0; SCommit 0; SCommit 0; SCommit 0; SUnlock 4] ++ go2 3 false).
(** An iterator yields 1 and 2.  The insertion of 0 finds the leaf and the leaf node full.  The iterator
    goes to the lower half and reads its entry.  Meanwhile another thread has locked the root, so the
    split is rolled back.  The iterator finds no mark on the leaf with 1 and 2, and yields 1 again. *)
Definition u1 : list (lsact nat nat) :=
  u0 ++ [LI (TNew 0)] ++ ts 10
  ++ map LT ([AInv 4 (OIns 0 50)] ++ go2 4 true ++ [SLock 4 5; SFrz 5 PUb (Some 1)])
  ++ [LL (LPushHi 5); LL (LPushLo 5); LT (SFull 5)] ++ ts 4
  ++ [LT (AInv 5 (OIns 5 50)); LT (ARoot 5); LT (SLock 5 4); LL (LRbHi 5); LL (LRbLo 5); LT (SRoll 5); LL (LUnm 5)] ++ ts 1.
Definition lfin (l : list (lsact nat nat)) : ls nat nat := match lsrun Nat.leb l linit with Some s => s | None => linit end.
Lemma lfin_run l : match lsrun Nat.leb l linit with Some _ => true | None => false end = true -> lsrun Nat.leb l linit = Some (lfin l).
Proof. unfold lfin. destruct (lsrun Nat.leb l linit); [auto|discriminate]. Qed.
Definition outs (s : ls nat nat) i := match its s i with Some x => Some (it0 x, out x) | None => None end.
Lemma outs_it s i b y : outs s i = Some (b, y) -> iterated s i b y.
Proof. unfold outs. destruct (its s i) as [x|] eqn:E; [|discriminate]. intros [= A B]. exists x. auto. Qed.
Lemma u1_run : lsrun Nat.leb u1 linit = Some (lfin u1).
Proof. apply lfin_run. vm_compute. reflexivity. Qed.
Lemma u1_out : iterated (lfin u1) 0 4 [(1, 10); (2, 20); (1, 10)].
Proof. apply outs_it. vm_compute. reflexivity. Qed.
Definition no_rem_b (a : lsact nat nat) : bool := match a with LT (AInv _ (ORem _ _)) => false | _ => true end.
Lemma no_rem_of l : forallb no_rem_b l = true -> no_removals l.
Proof. intros H t k c I. rewrite forallb_forall in H. now apply H in I. Qed.
Lemma u1_norem : no_removals u1.
Proof. apply no_rem_of. vm_compute. reflexivity. Qed.

Lemma wit_twice : exists (l : list (lsact nat nat)) s b y, lsrun Nat.leb l linit = Some s /\ no_removals l /\ iterated s 0 b y
  /\ ~ ascending Nat.leb (map fst y) /\ ~ NoDup (map fst y).
Proof.
  exists u1, (lfin u1), 4, [(1, 10); (2, 20); (1, 10)]. split; [exact u1_run|]. split; [exact u1_norem|]. split; [exact u1_out|]. split.
  - intros [H _]. discriminate (H 1). right. now left.
  - intros H. inversion_clear H as [|? ? N _]. apply N. right. now left.
Qed.

(** An iterator that yields everything: it has yielded 1 when its leaf is split for the insertion of 0;
    3 is removed and 5 is inserted before it gets to the next leaf. *)
Definition u2b : list (lsact nat nat) :=
  [LI (TNew 0)] ++ ts 9
  ++ map LT ([AInv 4 (OIns 0 50)] ++ go2 4 true ++ [SLock 4 5; SFrz 5 PUb (Some 1)])
  ++ [LL (LPushHi 5); LL (LPushLo 5); LT (SIns 5)] ++ ts 4 ++ [LL (LDelO 5); LT (SThaw 5); LT (SSwap 5); LT (SUnlock 5)] ++ map LT (go2 4 false)
  ++ map LT ([AInv 5 (ORem 3 (fun _ => true))] ++ go2 5 false ++ [AInv 6 (OIns 5 50)] ++ go2 6 false) ++ ts 20.
Definition u2 : list (lsact nat nat) := u0 ++ u2b.
(** Another iterator, created after that. *)
Definition u3c : list (lsact nat nat) := LI (TNew 1) :: repeat (LI (TStep 1)) 30.
Definition ended (s : ls nat nat) i := match its s i with Some x => match ipos x with IEnd e => Some e | _ => None end | None => None end.
Lemma ended_fin s i e : ended s i = Some e -> finished s i e.
Proof. unfold ended. destruct (its s i) as [x|] eqn:E; [|discriminate]. destruct (ipos x) eqn:P; try discriminate. intros [= <-]. exists x. auto. Qed.
Lemma u2_ok : exists s, lsrun Nat.leb u2 linit = Some s /\ iterated s 0 4 [(1, 10); (2, 20); (4, 40); (5, 50)] /\ finished s 0 7
  /\ log (tc s) = [EIns 6 5 50; ERem 5 3; EIns 4 0 50; EIns 3 3 30; EIns 2 4 40; EIns 1 2 20; EIns 0 1 10].
Proof.
  exists (lfin u2). split; [apply lfin_run; vm_compute; reflexivity|]. split; [apply outs_it; vm_compute; reflexivity|].
  split; [apply ended_fin; vm_compute; reflexivity|vm_compute; reflexivity].
Qed.
