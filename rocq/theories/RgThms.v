(** Theorems about ranges over a shared TreeIndex, with examples. *)
From Coq Require Import List Arith Bool Lia.
From Verif Require Import TcModel TcRoute TcSpec TcWit TcLin TiModel TiSpec TiWit RgModel RgSpec RgFacts RgMore.
Import ListNotations.

Lemma lC30_bounded (K V : Type) (leb : K -> K -> bool) : tord leb ->
  forall (la lb : list (ract K V)) sa s i b y, rrun leb la rinit = Some sa -> rrun leb lb sa = Some s ->
    all_returned (li sa) (removes_beyond leb b) -> none_begins (li sa) (li s) (removes_beyond leb b) ->
    rgs sa i = None -> ranged s i b y -> forall k v, In (k, v) y -> in_upper leb b k.
Proof. intros HO la lb sa s i b y. exact (range_bounded leb HO la lb sa s i b y). Qed.
Lemma lC62_complete (K V : Type) (leb : K -> K -> bool) : tord leb ->
  forall (l : list (ract K V)) s i b t0 y k v, rrun leb l rinit = Some s -> ranged s i b y -> created s i t0 -> range_over s i ->
    throughout leb (log (tc (li s))) t0 (length (log (tc (li s)))) k v -> in_upper leb b k -> In (k, v) y.
Proof. intros HO l s i b t0 y k v. exact (range_complete leb HO l s i b t0 y k v). Qed.
Lemma lC62_sound (K V : Type) (leb : K -> K -> bool) : tord leb ->
  forall (l : list (ract K V)) s i b t0 y k v, rrun leb l rinit = Some s -> ranged s i b y -> created s i t0 -> In (k, v) y ->
    sometime leb (log (tc (li s))) t0 (length (log (tc (li s)))) k v.
Proof. intros HO l s i b t0 y k v. exact (range_sound leb HO l s i b t0 y k v). Qed.
Lemma lC62_ordered (K V : Type) (leb : K -> K -> bool) : tord leb ->
  forall (l : list (ract K V)) s i b y, rrun leb l rinit = Some s -> no_rollback_r l -> ranged s i b y -> ascending leb (map fst y).
Proof. intros HO l s i b y. exact (range_ordered leb HO l s i b y). Qed.

(** The run of C56_example with a range up to 4 in place of the iterator: while it stands in the leaf with 1
    and 2, this leaf is split for the insertion of 0; then 3 is removed and 5 is inserted. *)
Definition rts n : list (ract nat nat) := repeat (RNext 0) n.
Definition rt (l : list (act nat nat)) : list (ract nat nat) := map (fun a => RL (LT a)) l.
Definition ra : list (ract nat nat) := map RL u0.
Definition rb4 : list (ract nat nat) :=
  [RNew 0 (UIncl 4)] ++ rts 10
  ++ rt ([AInv 4 (OIns 0 50)] ++ go2 4 true ++ [SLock 4 5; SFrz 5 PUb (Some 1)])
  ++ [RL (LL (LPushHi 5)); RL (LL (LPushLo 5)); RL (LT (SIns 5))] ++ rts 4
  ++ [RL (LL (LDelO 5))] ++ rt ([SThaw 5; SSwap 5; SUnlock 5] ++ go2 4 false
       ++ [AInv 5 (ORem 3 (fun _ => true))] ++ go2 5 false ++ [AInv 6 (OIns 5 50)] ++ go2 6 false) ++ rts 12.
Definition rfin (l : list (ract nat nat)) (s : rs nat nat) : rs nat nat := match rrun Nat.leb l s with Some s => s | None => s end.
Lemma rfin_run l s : match rrun Nat.leb l s with Some _ => true | None => false end = true -> rrun Nat.leb l s = Some (rfin l s).
Proof. unfold rfin. destruct (rrun Nat.leb l s); [auto|discriminate]. Qed.
Definition obs (s : rs nat nat) i := match rgs s i, its (li s) i with
  | Some r, Some x => Some (rb r, ry r, rend r, it0 x) | _, _ => None end.
Lemma obs_ok s i b y t0 : obs s i = Some (b, y, true, t0) -> ranged s i b y /\ created s i t0 /\ range_over s i.
Proof.
  unfold obs, ranged, created, range_over. destruct (rgs s i) as [r|]; [|discriminate]. destruct (its (li s) i) as [x|]; [|discriminate].
  intros H. injection H as A B C D. split; [exists r; auto|]. split; [exists x; auto|exists r; auto].
Qed.
Definition sa4 := rfin ra rinit.
Definition s4 := rfin rb4 sa4.
Definition far_rem (a : ract nat nat) : bool := match a with RL (LT (AInv _ (ORem k _))) => 4 <? k | _ => false end.
Definition any_unm (a : ract nat nat) : bool := match a with RL (LL (LUnm _)) => true | _ => false end.
Lemma far_none l s s' : rrun Nat.leb l s = Some s' -> existsb far_rem l = false -> none_begins (li s) (li s') (removes_beyond Nat.leb (UIncl 4)).
Proof.
  intros R N t q C (k & c & B & ->). destruct (rcall_in Nat.leb l s s' t _ R C) as [|I]; auto.
  assert (existsb far_rem l = true) as E; [|congruence]. apply existsb_exists. eexists. split; [exact I|].
  cbn in B. rewrite Nat.leb_le in B. unfold far_rem. apply Nat.ltb_lt. lia.
Qed.
Lemma ra_run : rrun Nat.leb ra rinit = Some sa4.
Proof. apply rfin_run. vm_compute. reflexivity. Qed.
Lemma rb_run : rrun Nat.leb rb4 sa4 = Some s4.
Proof. apply rfin_run. vm_compute. reflexivity. Qed.
Lemma s4_obs : ranged s4 0 (UIncl 4) [(1, 10); (2, 20); (4, 40)] /\ created s4 0 4 /\ range_over s4 0.
Proof. apply obs_ok. vm_compute. reflexivity. Qed.
Lemma s4_log : log (tc (li s4)) = [EIns 6 5 50; ERem 5 3; EIns 4 0 50; EIns 3 3 30; EIns 2 4 40; EIns 1 2 20; EIns 0 1 10].
Proof. vm_compute. reflexivity. Qed.
Lemma lC30_ex : exists sa s, rrun Nat.leb ra rinit = Some sa /\ rrun Nat.leb rb4 sa = Some s
  /\ all_returned (li sa) (removes_beyond Nat.leb (UIncl 4)) /\ none_begins (li sa) (li s) (removes_beyond Nat.leb (UIncl 4))
  /\ rgs sa 0 = None /\ ranged s 0 (UIncl 4) [(1, 10); (2, 20); (4, 40)]
  /\ log (tc (li s)) = [EIns 6 5 50; ERem 5 3; EIns 4 0 50; EIns 3 3 30; EIns 2 4 40; EIns 1 2 20; EIns 0 1 10].
Proof.
  exists sa4, s4. split; [exact ra_run|]. split; [exact rb_run|]. split.
  - intros t q C P. destruct (far_none ra rinit sa4 ra_run (eq_refl _) t q C P) as (p & E & _). discriminate E.
  - split; [exact (far_none rb4 sa4 s4 rb_run (eq_refl _))|]. split; [vm_compute; reflexivity|]. split; [apply s4_obs|exact s4_log].
Qed.
Lemma rrun_app (l1 l2 : list (ract nat nat)) : forall s s1, rrun Nat.leb l1 s = Some s1 -> rrun Nat.leb (l1 ++ l2) s = rrun Nat.leb l2 s1.
Proof.
  induction l1 as [|a l IH]; cbn; intros s s1 H; [now injection H as <-|]. destruct (rstep Nat.leb a s) as [s2|]; [|discriminate]. auto.
Qed.
Lemma lC62_ex : exists s, rrun Nat.leb (ra ++ rb4) rinit = Some s /\ no_rollback_r (ra ++ rb4)
  /\ ranged s 0 (UIncl 4) [(1, 10); (2, 20); (4, 40)] /\ created s 0 4 /\ range_over s 0
  /\ throughout Nat.leb (log (tc (li s))) 4 (length (log (tc (li s)))) 4 40
  /\ log (tc (li s)) = [EIns 6 5 50; ERem 5 3; EIns 4 0 50; EIns 3 3 30; EIns 2 4 40; EIns 1 2 20; EIns 0 1 10].
Proof.
  exists s4. split; [rewrite (rrun_app ra rb4 _ _ ra_run); exact rb_run|]. split.
  - intros n I. assert (existsb any_unm (ra ++ rb4) = true) as E by (apply existsb_exists; eexists; split; [exact I|reflexivity]).
    assert (existsb any_unm (ra ++ rb4) = false) as F by (vm_compute; reflexivity). congruence.
  - destruct s4_obs as (A & B & C). split; [exact A|]. split; [exact B|]. split; [exact C|]. split; [|exact s4_log].
    rewrite s4_log. intros j [L H]. cbn [length] in H.
    assert (j = 4 \/ j = 5 \/ j = 6 \/ j = 7) as [-> | [-> | [-> | ->]]] by lia; vm_compute; reflexivity.
Qed.
