(** What one step of the system may do to the tree as readers see it. *)
From Coq Require Import List Arith Bool Lia.
From Verif Require Import TcModel TcRoute TcSpec TcInv TcTree TcFrame TcKeep TcJobs TcSplit TcFrz TcMove TcGrow TcFz TcFzs.
Import ListNotations.

Section ext.
Context {K V : Type} (leb : K -> K -> bool) (HO : tord leb).
Notation heap := (nat -> obj K V).
Notation nxt := (nxt leb).
Notation On := (On leb).
Notation Live := (Live leb).
Notation HInv := (HInv leb).
Implicit Types (k s m : K) (x y z u v w p a : nat).

(** Metadata never returns to an earlier value: slots are only added, and keys only removed. *)
Definition ver (M : meta (K := K)) : nat := snd M + (snd M - length (fst M)).

Record Ext (h : heap) (f : nat) (r : option nat) (h' : heap) (f' : nat) (r' : option nat) : Prop := {
  x_f : f <= f';
  x_lvl : forall y, y < f -> lvl (h' y) = lvl (h y);
  x_on : forall k y, On h r k y -> On h' r' k y \/ (closed (h' y) /\ same (h' y) (h y));
  x_cl : forall y, y < f -> closed (h y) -> closed (h' y) /\ same (h' y) (h y);
  x_meta : forall y, y < f -> meta_of (h' y) = meta_of (h y) \/ ver (meta_of (h y)) < ver (meta_of (h' y)) }.

Lemma wfc_len (cs : list (cell K)) n : wfc leb cs n -> length cs <= n.
Proof.
  intros (_ & Nd & B). rewrite <- (map_length cslot cs). fold (slots cs).
  rewrite <- (seq_length n 0). apply NoDup_incl_length; auto. intros j Hj. apply in_seq. specialize (B j Hj). lia.
Qed.
Lemma del_len (cs : list (cell K)) j c : slot_child cs j = Some c -> NoDup (slots cs) ->
  S (length (del_slot j cs)) = length cs.
Proof.
  induction cs as [|e cs IH]; cbn; [discriminate|]. intros H Nd. inversion Nd; subst.
  destruct (Nat.eqb_spec (cslot e) j) as [<-|N]; cbn.
  - f_equal. assert (del_slot (cslot e) cs = cs) as E; [|unfold del_slot in E; now rewrite E].
    clear -H2. unfold del_slot. induction cs as [|a cs IH]; cbn in *; auto.
    destruct (Nat.eqb_spec (cslot a) (cslot e)) as [E|E]; cbn; [tauto|]. rewrite IH; tauto.
  - f_equal. apply IH; auto.
Qed.
Lemma ins_len (e : cell K) cs : length (ins_cell leb e cs) = S (length cs).
Proof. induction cs as [|a cs IH]; cbn; auto. destruct (leb (ckey e) (ckey a)); cbn; auto. Qed.

Context (h : heap) (f : nat) (r : option nat) (lg : list (ev K V)) (HI : HInv h f r lg).
Notation "'on' k x" := (On h r k x) (at level 10, k at level 9, x at level 9).

Lemma meta_same (a b : obj K V) : same a b -> nsl a = nsl b -> meta_of a = meta_of b.
Proof. intros (_ & _ & E & _) N. unfold meta_of. now rewrite E, N. Qed.
Lemma closed_same (a b : obj K V) : same a b -> ret a = ret b -> (over b = true -> over a = true) -> closed b -> closed a.
Proof.
  intros (L & _ & _ & U) R O [C|C]; [left; auto|right]. unfold retired in *. now rewrite L, R, U.
Qed.
Lemma on_same h' k y : (forall y, y < f -> same (h' y) (h y)) -> on k y -> On h' r k y.
Proof.
  intros S H. induction H as [n Hn|u z Hu IH Hz]; [now constructor|].
  eapply On_step; eauto. unfold TcInv.nxt in *. rewrite <- Hz. apply same_nx, S. eapply on_lt; eauto.
Qed.
Lemma ext_same h' f' : f <= f' ->
  (forall y, y < f -> same (h' y) (h y) /\ ret (h' y) = ret (h y) /\ nsl (h' y) = nsl (h y)
    /\ (over (h y) = true -> over (h' y) = true)) -> Ext h f r h' f' r.
Proof.
  intros Hf S. constructor; auto.
  - intros y Hy. apply S; auto.
  - intros k y H. left. apply on_same; auto. apply S.
  - intros y Hy C. destruct (S y Hy) as (A & B & _ & D). split; auto. eapply closed_same; eauto.
  - intros y Hy. left. apply meta_same; apply S; auto.
Qed.
Lemma ext_one h' f' n : f <= f' -> n < f -> ~ closed (h n) -> lvl (h' n) = lvl (h n) ->
  (forall y, y < f -> y <> n -> same (h' y) (h y) /\ ret (h' y) = ret (h y) /\ nsl (h' y) = nsl (h y)
    /\ (over (h y) = true -> over (h' y) = true)) ->
  (forall k y, on k y -> On h' r k y \/ (closed (h' y) /\ same (h' y) (h y))) ->
  meta_of (h' n) = meta_of (h n) \/ ver (meta_of (h n)) < ver (meta_of (h' n)) ->
  Ext h f r h' f' r.
Proof.
  intros Hf Hn C L S O M. constructor; auto.
  - intros y Hy. destruct (Nat.eq_dec y n) as [->|N]; auto. apply S; auto.
  - intros y Hy C0. destruct (Nat.eq_dec y n) as [->|N]; [tauto|]. destruct (S y Hy N) as (A & B & _ & D).
    split; auto. eapply closed_same; eauto.
  - intros y Hy. destruct (Nat.eq_dec y n) as [->|N]; auto. left. apply meta_same; apply S; auto.
Qed.
Lemma not_closed n c : n < f -> In c (kids (h n)) -> over (h n) = false -> ~ closed (h n).
Proof.
  intros Hn Hc O [C|C]; [congruence|]. destruct (kid_lvl leb h f r lg HI n c Hn Hc) as [L _].
  destruct (kid_ub leb h f r lg HI n c Hn Hc) as [u Hu]. unfold retired in C. now rewrite L, Hu in C.
Qed.

(** ** Frozen leaves *)
Context (FI : FInv h f).
Lemma tr_neutral (h' : heap) j j' : neutral j -> neutral j' -> tr h h' j j'.
Proof.
  intros A B. apply T1; auto; try (intros; intros ->; destruct A; fail).
  intros ? ? ? ? ? J. destruct j; destruct A; discriminate.
Qed.
Lemma fs_one (h' : heap) n : n < f -> (forall y, y <> n -> h' y = h y) -> neutral (jb (h n)) -> neutral (jb (h' n)) ->
  fz (h' n) = fz (h n) -> lvl (h' n) = lvl (h n) -> (over (h n) = true -> over (h' n) = true) ->
  incl (kids (h' n)) (kids (h n)) -> FInv h' f.
Proof.
  intros Hn E N N' F L O Kd. apply (f_frame h h' f f); auto.
  - intros y Hy. rewrite E by lia. now apply (f_blank _ _ FI).
  - intros y. destruct (Nat.eq_dec y n) as [->|Ny]; [auto|left; now rewrite E].
  - intros y _. destruct (Nat.eq_dec y n) as [->|Ny]; [auto|now rewrite E].
  - intros y. destruct (Nat.eq_dec y n) as [->|Ny]; [auto|now rewrite E].
  - intros y. destruct (Nat.eq_dec y n) as [->|Ny]; [now apply tr_neutral|apply T0; now rewrite E].
  - intros y u. destruct (Nat.eq_dec y n) as [->|Ny]; [left; auto|left; now rewrite E in H].
  - intros y. destruct (Nat.eq_dec y n) as [->|Ny]; [|intros _; rewrite E by auto; apply incl_refl].
    intros X. exfalso. apply X. destruct (jb (h n)); destruct N; auto.
  - intros y J. destruct (Nat.eq_dec y n) as [->|Ny]; [|now rewrite E]. rewrite J in N. destruct N.
Qed.
Lemma fs_tr (h' : heap) : (forall y, f <= y -> h' y = h y) ->
  (forall y, lvl (h' y) = lvl (h y) /\ cells (h' y) = cells (h y) /\ ub (h' y) = ub (h y)
    /\ (over (h y) = true -> over (h' y) = true) /\ (fz (h' y) = fz (h y) \/ fz (h' y) = Open)) ->
  (forall y, tr h h' (jb (h y)) (jb (h' y))) -> FInv h' f.
Proof.
  intros B S T. assert (forall y, kids (h' y) = kids (h y)) as Kd.
  { intros y. destruct (S y) as (_ & E1 & E2 & _). unfold kids. now rewrite E1, E2. }
  apply (f_frame h h' f f); auto.
  - intros y Hy. rewrite B by auto. now apply (f_blank _ _ FI).
  - intros y. apply S.
  - intros y _. apply S.
  - intros y. apply S.
  - intros y u Hu. left. now rewrite <- Kd.
  - intros y _. rewrite Kd. apply incl_refl.
  - intros y _. apply S.
Qed.
End ext.
