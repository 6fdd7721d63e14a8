(** Examples of iterators that see what was inserted, and not what was removed, before. *)
From Coq Require Import List Arith Bool.
From Verif Require Import TcModel TcRoute TcSpec TcWit TcLin TcLins TiModel TiSpec TiWit TiCur TiLoop TiCalls.
Import ListNotations.

Section calls.
Context {K V : Type} (leb : K -> K -> bool).
Lemma call_step (a : act K V) s s' t p' : step leb a s = Some s' -> ops s' t = Some p' ->
  (exists p, ops s t = Some p /\ kind p' = kind p) \/ a = AInv t (kind p').
Proof.
  intros H H'. destruct (ops s t) as [p|] eqn:E.
  - destruct (step_ops leb a s s' H) as (A & _). destruct (A t p E) as (p1 & E1 & Ek & _). left. exists p. split; auto. congruence.
  - destruct (step_ops leb a s s' H) as (_ & A & _). destruct (A t E) as [D|(q & p1 & -> & D & _)]; [congruence|]. right.
    unfold step in H. destruct (err s); [discriminate|]. rewrite E in H. injection H as <-. cbn in H'. unfold upd in H'.
    rewrite Nat.eqb_refl in H'. now injection H' as <-.
Qed.
Lemma call_in l : forall (s s' : ls K V) t q, lsrun leb l s = Some s' -> call s' t q -> call s t q \/ In (LT (AInv t q)) l.
Proof.
  induction l as [|x l IH]; cbn; intros s s' t q H C; [injection H as <-; auto|]. destruct (lsstep leb x s) as [s1|] eqn:E; [|discriminate].
  destruct (IH _ _ _ _ H C) as [(p & Hp & Hk)|]; auto.
  destruct x as [x|x|[i|i]]; cbn [lsstep] in E.
  - apply t_parts in E as (E & _). destruct (call_step _ _ _ _ _ E Hp) as [(p0 & A & B)|A].
    + left. exists p0. split; auto. congruence.
    + right. left. rewrite A, Hk. reflexivity.
  - apply l_tc in E. left. exists p. now rewrite <- E.
  - destruct (its s i); [discriminate|]. injection E as <-. left. exists p. auto.
  - destruct (its s i); [|discriminate]. injection E as <-. left. exists p. auto.
Qed.
End calls.
Lemma call_of s t q : knd (tc s) t = Some q -> call s t q.
Proof. unfold knd. destruct (ops (tc s) t) as [p|] eqn:E; [|discriminate]. intros [= <-]. exists p. auto. Qed.

Definition l0 : ls nat nat := linit.
Lemma all_l0 P : all_returned l0 P.
Proof. intros t q (p & E & _). discriminate. Qed.
Lemma lfin_app a b : match lsrun Nat.leb a linit with Some _ => true | None => false end = true ->
  match lsrun Nat.leb (a ++ b) linit with Some _ => true | None => false end = true -> lsrun Nat.leb b (lfin a) = Some (lfin (a ++ b)).
Proof.
  intros Ra Rab. apply lfin_run in Ra. apply lfin_run in Rab. rewrite (lsrun_app Nat.leb a b linit (lfin a) Ra) in Rab. exact Rab.
Qed.
Lemma stat_ret' (s : ls nat nat) t r e : stat (tc s) t = Some (PDone r e) -> returned (tc s) t r.
Proof. apply stat_ret. Qed.
Definition is_rem (k : nat) (a : lsact nat nat) : bool := match a with LT (AInv _ (ORem k' _)) => k =? k' | _ => false end.
Definition is_ins (k : nat) (a : lsact nat nat) : bool := match a with LT (AInv _ (OIns k' _)) => k =? k' | _ => false end.
Lemma none_rem k l s s' : lsrun Nat.leb l s = Some s' -> existsb (is_rem k) l = false -> none_begins s s' (removal k).
Proof.
  intros R N t q C [c ->]. destruct (call_in Nat.leb l s s' t _ R C) as [|I]; auto.
  assert (existsb (is_rem k) l = true) as E by (apply existsb_exists; eexists; split; [exact I|apply Nat.eqb_refl]). congruence.
Qed.
Lemma none_ins k l s s' : lsrun Nat.leb l s = Some s' -> existsb (is_ins k) l = false -> none_begins s s' (insertion k).
Proof.
  intros R N t q C [c ->]. destruct (call_in Nat.leb l s s' t _ R C) as [|I]; auto.
  assert (existsb (is_ins k) l = true) as E by (apply existsb_exists; eexists; split; [exact I|apply Nat.eqb_refl]). congruence.
Qed.
(** The insertion of 4 has returned when the iterator of [u2] is created. *)
Lemma ex_seen : exists sb s, lsrun Nat.leb u0 l0 = Some sb /\ lsrun Nat.leb u2b sb = Some s
  /\ all_returned l0 (removal 4) /\ none_begins l0 s (removal 4)
  /\ ops (tc l0) 2 = None /\ call sb 2 (OIns 4 40) /\ returned (tc sb) 2 (RIns true) /\ its sb 0 = None
  /\ iterated s 0 4 [(1, 10); (2, 20); (4, 40); (5, 50)] /\ finished s 0 7.
Proof.
  exists (lfin u0), (lfin u2).
  split; [apply lfin_run; vm_compute; reflexivity|]. split; [apply lfin_app; vm_compute; reflexivity|].
  split; [apply all_l0|]. split; [apply (none_rem _ u2); [apply lfin_run; vm_compute; reflexivity|vm_compute; reflexivity]|].
  split; [reflexivity|]. split; [apply call_of; vm_compute; reflexivity|]. split; [apply (stat_ret' _ _ _ 3); vm_compute; reflexivity|].
  split; [vm_compute; reflexivity|]. split; [apply outs_it; vm_compute; reflexivity|apply ended_fin; vm_compute; reflexivity].
Qed.
(** The removal of 3 has returned when another iterator is created. *)
Lemma ex_skipped : exists sa sb s, lsrun Nat.leb u0 l0 = Some sa /\ lsrun Nat.leb u2b sa = Some sb /\ lsrun Nat.leb u3c sb = Some s
  /\ all_returned sa (insertion 3) /\ none_begins sa s (insertion 3)
  /\ ops (tc sa) 5 = None /\ (exists c, call sb 5 (ORem 3 c)) /\ returned (tc sb) 5 (RRem true) /\ its sb 1 = None
  /\ iterated s 1 7 [(0, 50); (1, 10); (2, 20); (4, 40); (5, 50)].
Proof.
  exists (lfin u0), (lfin u2), (lfin (u2 ++ u3c)).
  assert (lsrun Nat.leb u2b (lfin u0) = Some (lfin u2)) as R2 by (apply lfin_app; vm_compute; reflexivity).
  assert (lsrun Nat.leb u3c (lfin u2) = Some (lfin (u2 ++ u3c))) as R3 by (apply lfin_app; vm_compute; reflexivity).
  split; [apply lfin_run; vm_compute; reflexivity|]. split; [exact R2|]. split; [exact R3|].
  split.
  { intros t q C [v ->]. assert (lsrun Nat.leb u0 linit = Some (lfin u0)) as R0 by (apply lfin_run; vm_compute; reflexivity).
    destruct (call_in Nat.leb u0 _ _ _ _ R0 C) as [(p & E & _)|I]; [discriminate|].
    assert (t = 3) as ->. { revert I. cbn. intros I. repeat destruct I as [I|I]; try discriminate I; try (now injection I as <- _); destruct I. }
    exists (RIns true). apply (stat_ret' _ _ _ 4). vm_compute. reflexivity. }
  split. { apply (none_ins _ (u2b ++ u3c)); [rewrite (lsrun_app Nat.leb _ _ _ _ R2); exact R3|vm_compute; reflexivity]. }
  split; [apply stat_none; vm_compute; reflexivity|]. split; [exists (fun _ => true); apply call_of; vm_compute; reflexivity|].
  split; [apply (stat_ret' _ _ _ 6); vm_compute; reflexivity|]. split; [vm_compute; reflexivity|]. apply outs_it; vm_compute; reflexivity.
Qed.
