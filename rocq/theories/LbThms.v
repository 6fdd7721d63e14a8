(** Theorems about ranges with a lower bound over a shared TreeIndex, with examples. *)
From Coq Require Import List Arith Bool Lia.
From Verif Require Import TcModel TcRoute TcSpec TcWit TcLin TiModel TiSpec TiWit RgModel RgSpec LbModel LbSpec LbFacts LbUp.
Import ListNotations.

Lemma lower_ok {K : Type} (leb : K -> K -> bool) (HO : tord leb) (b : lbd K) k : in_lower leb b k <-> below leb b k = false.
Proof.
  destruct b as [h|h|]; cbn; unfold ltb; [rewrite negb_false_iff; tauto| |tauto].
  split; [tauto|]. intros H. split; auto. destruct (t_total leb HO h k); congruence.
Qed.
Lemma lC30_span (K V : Type) (leb : K -> K -> bool) : tord leb ->
  forall (la lb : list (lbact K V)) sa s i l u y, lbrun leb la lbinit = Some sa -> lbrun leb lb sa = Some s ->
    no_rollback_b (la ++ lb) ->
    all_returned (bl sa) (removes_beyond leb u) -> none_begins (bl sa) (bl s) (removes_beyond leb u) ->
    lrs sa i = None -> spanned s i l u y -> forall k v, In (k, v) y -> in_lower leb l k /\ in_upper leb u k.
Proof.
  intros HO la lb sa s i l u y Ra Rb Nu Al No Ni Sp k v I. split.
  - assert (lbrun leb (la ++ lb) lbinit = Some s) as R.
    { clear - Ra Rb. revert Ra. generalize (@lbinit K V). induction la as [|a la IH]; cbn; intros s0 H; [now injection H as ->|].
      destruct (lbstep leb a s0); [|discriminate]. auto. }
    apply (lower_ok leb HO). exact (proj1 (span_low leb HO _ s i l u y R Nu Sp) k v I).
  - exact (span_up leb HO la lb sa s i l u y Ra Rb Al No Ni Sp k v I).
Qed.
Lemma lC30_low (K V : Type) (leb : K -> K -> bool) : tord leb ->
  forall (l : list (lbact K V)) s i b u y, lbrun leb l lbinit = Some s -> no_rollback_b l -> spanned s i b u y ->
    forall k v, In (k, v) y -> in_lower leb b k.
Proof. intros HO l s i b u y R N Sp k v I. apply (lower_ok leb HO). exact (proj1 (span_low leb HO l s i b u y R N Sp) k v I). Qed.
Lemma lC56_span (K V : Type) (leb : K -> K -> bool) : tord leb ->
  forall (l : list (lbact K V)) s i b u y, lbrun leb l lbinit = Some s -> no_rollback_b l -> spanned s i b u y -> ascending leb (map fst y).
Proof. intros HO l s i b u y R N Sp. exact (proj2 (span_low leb HO l s i b u y R N Sp)). Qed.

Definition bts n : list (lbact nat nat) := repeat (BNext 0) n.
Definition bt (l : list (act nat nat)) : list (lbact nat nat) := map (fun a => BL (LT a)) l.
Definition bfin (l : list (lbact nat nat)) (s : lbs nat nat) : lbs nat nat := match lbrun Nat.leb l s with Some s => s | None => s end.
Lemma bfin_run l s : match lbrun Nat.leb l s with Some _ => true | None => false end = true -> lbrun Nat.leb l s = Some (bfin l s).
Proof. unfold bfin. destruct (lbrun Nat.leb l s); [auto|discriminate]. Qed.
Definition bobs (s : lbs nat nat) i := match lrs s i with Some r => Some (llo r, lup r, ly r) | None => None end.
Lemma bobs_ok s i l u y : bobs s i = Some (l, u, y) -> spanned s i l u y.
Proof. unfold bobs, spanned. destruct (lrs s i) as [r|]; [|discriminate]. intros [= A B C]. exists r. auto. Qed.

(** The run of C56_iteration_order_refuted, with a range from 2 on in place of the iterator: it has yielded
    2 when the leaf with 1 and 2 is to be split, goes to the lower half and reads 1 there; the split is
    rolled back, and the range yields 1. *)
Definition w1 : list (lbact nat nat) :=
  map BL u0 ++ [BNew 0 (LIncl 2) UNone] ++ bts 12
  ++ bt ([AInv 4 (OIns 0 50)] ++ go2 4 true ++ [SLock 4 5; SFrz 5 PUb (Some 1)])
  ++ [BL (LL (LPushHi 5)); BL (LL (LPushLo 5)); BL (LT (SFull 5))] ++ bts 4
  ++ bt [AInv 5 (OIns 5 50); ARoot 5; SLock 5 4] ++ [BL (LL (LRbHi 5)); BL (LL (LRbLo 5)); BL (LT (SRoll 5)); BL (LL (LUnm 5))] ++ bts 2.
Definition brem (a : lbact nat nat) : bool := match a with BL (LT (AInv _ (ORem _ _))) => true | _ => false end.
Definition bunm (a : lbact nat nat) : bool := match a with BL (LL (LUnm _)) => true | _ => false end.
Lemma brem_of l : existsb brem l = false -> no_removals_b l.
Proof. intros E t k c I. assert (existsb brem l = true) as X; [|congruence]. apply existsb_exists. eexists. split; [exact I|reflexivity]. Qed.
Lemma bunm_of l : existsb bunm l = false -> no_rollback_b l.
Proof. intros E n I. assert (existsb bunm l = true) as X; [|congruence]. apply existsb_exists. eexists. split; [exact I|reflexivity]. Qed.
Lemma lC30_low_refuted : exists (l : list (lbact nat nat)) s y, lbrun Nat.leb l lbinit = Some s /\ no_removals_b l /\ spanned s 0 (LIncl 2) UNone y
  /\ exists k v, In (k, v) y /\ ~ in_lower Nat.leb (LIncl 2) k.
Proof.
  exists w1, (bfin w1 lbinit), [(2, 20); (1, 10)]. split; [apply bfin_run; vm_compute; reflexivity|].
  split; [apply brem_of; vm_compute; reflexivity|]. split; [apply bobs_ok; vm_compute; reflexivity|].
  exists 1, 10. split; [right; now left|discriminate].
Qed.

(** A range from 2 to 4: it has yielded 2 when its leaf is split for the insertion of 0; 3 is removed and 5
    is inserted before it gets to the next leaf. *)
Definition b0 : list (lbact nat nat) := map BL u0.
Definition b1 : list (lbact nat nat) :=
  [BNew 0 (LIncl 2) (UIncl 4)] ++ bts 12
  ++ bt ([AInv 4 (OIns 0 50)] ++ go2 4 true ++ [SLock 4 5; SFrz 5 PUb (Some 1)])
  ++ [BL (LL (LPushHi 5)); BL (LL (LPushLo 5)); BL (LT (SIns 5))] ++ bts 4
  ++ [BL (LL (LDelO 5))] ++ bt ([SThaw 5; SSwap 5; SUnlock 5] ++ go2 4 false
       ++ [AInv 5 (ORem 3 (fun _ => true))] ++ go2 5 false ++ [AInv 6 (OIns 5 50)] ++ go2 6 false) ++ bts 11.
Definition bfar (a : lbact nat nat) : bool := match a with BL (LT (AInv _ (ORem k _))) => 4 <? k | _ => false end.
Lemma bfar_none l s s' : lbrun Nat.leb l s = Some s' -> existsb bfar l = false -> none_begins (bl s) (bl s') (removes_beyond Nat.leb (UIncl 4)).
Proof.
  intros R N t q C (k & c & B & ->). destruct (bcall_in Nat.leb l s s' t _ R C) as [|I]; auto.
  assert (existsb bfar l = true) as E; [|congruence]. apply existsb_exists. eexists. split; [exact I|].
  cbn in B. rewrite Nat.leb_le in B. unfold bfar. apply Nat.ltb_lt. lia.
Qed.
Definition c0 := bfin b0 lbinit.
Definition c1 := bfin b1 c0.
Lemma b0_run : lbrun Nat.leb b0 lbinit = Some c0.
Proof. apply bfin_run. vm_compute. reflexivity. Qed.
Lemma b1_run : lbrun Nat.leb b1 c0 = Some c1.
Proof. apply bfin_run. vm_compute. reflexivity. Qed.
Lemma lC30_span_ex : exists sa s, lbrun Nat.leb b0 lbinit = Some sa /\ lbrun Nat.leb b1 sa = Some s /\ no_rollback_b (b0 ++ b1)
  /\ all_returned (bl sa) (removes_beyond Nat.leb (UIncl 4)) /\ none_begins (bl sa) (bl s) (removes_beyond Nat.leb (UIncl 4))
  /\ lrs sa 0 = None /\ spanned s 0 (LIncl 2) (UIncl 4) [(2, 20); (4, 40)]
  /\ log (tc (bl s)) = [EIns 6 5 50; ERem 5 3; EIns 4 0 50; EIns 3 3 30; EIns 2 4 40; EIns 1 2 20; EIns 0 1 10].
Proof.
  exists c0, c1. split; [exact b0_run|]. split; [exact b1_run|]. split; [apply bunm_of; vm_compute; reflexivity|]. split.
  - intros t q C P. destruct (bfar_none b0 lbinit c0 b0_run (eq_refl _) t q C P) as (p & E & _). discriminate E.
  - split; [exact (bfar_none b1 c0 c1 b1_run (eq_refl _))|]. split; [vm_compute; reflexivity|].
    split; [apply bobs_ok; vm_compute; reflexivity|vm_compute; reflexivity].
Qed.
