(** Leaves that are frozen: every leaf in a leaf node that nobody works on is open. *)
From Coq Require Import List Arith Bool Lia.
From Verif Require Import TcModel TcRoute TcSpec TcInv TcTree TcFrame TcKeep TcJobs TcSplit TcFrz TcMove TcGrow.
Import ListNotations.

Section fz.
Context {K V : Type} (leb : K -> K -> bool) (HO : tord leb).
Notation heap := (nat -> obj K V).
Notation HInv := (HInv leb).

Definition bad (z : fzs) : Prop := match z with Hold _ | Gone => True | _ => False end.
(** The halves of a job that are not in the tree yet. *)
Definition fp (j : job K) (u : nat) : Prop :=
  match j with
  | Swap0 _ _ lo => u = lo
  | Split _ _ _ lo hi | Full _ _ _ lo hi _ _ => u = lo \/ u = hi
  | Ins _ _ _ _ hi _ => u = hi
  | _ => False
  end.
Definition isFull (j : job K) : Prop := match j with Full _ _ _ _ _ _ _ => True | _ => False end.
Definition jh (j : job K) (u : nat) : Prop :=
  match j with Full _ _ _ lo hi _ _ | Commit _ lo hi _ _ => u = lo \/ u = hi | _ => False end.
(** The new leaf nodes that a commit is to unlock. *)
Definition need (j : job K) : list nat :=
  match j with
  | Full _ _ _ _ _ (Some _) (Some (a, b)) => [a; b]
  | Commit _ _ _ (Some (a, b)) i =>
      match i with 0 | 1 | 2 => [a; b] | 3 => [b] | _ => [] end
  | _ => []
  end.
Definition neutral (j : job K) : Prop := match j with Idle | Locked | Poison | CUb _ => True | _ => False end.

Record FInv (h : heap) (f : nat) : Prop := {
  f_blank : forall y, f <= y -> h y = blank;
  f_orig : forall L n, lvl (h L) = 0 -> fz (h L) = Orig n ->
    over (h L) = true \/ exists o om lo hi, jv (jb (h n)) = Some (o, L, om, lo, hi);
  f_hold : forall n L, lvl (h n) = 1 -> In L (kids (h n)) -> bad (fz (h L)) ->
    jb (h n) = NewLk \/ exists o c m hi, jb (h n) = Ins o c m L hi false;
  f_priv : forall n u y, lvl (h n) = 1 -> fp (jb (h n)) u -> In u (kids (h y)) ->
    jb (h y) = NewLk /\ isFull (jb (h n));
  f_need : forall y a, In a (need (jb (h y))) -> jb (h a) = NewLk
    /\ forall u, In u (kids (h a)) -> jh (jb (h y)) u \/ In u (kids (h y));
  f_disj : forall y1 y2 a, In a (need (jb (h y1))) -> In a (need (jb (h y2))) -> y1 = y2;
  f_nd : forall y, NoDup (need (jb (h y)));
  f_stage : forall y c lo hi lns i, lvl (h y) = 1 -> jb (h y) = Commit c lo hi lns i ->
    (1 <= i -> ~ bad (fz (h lo))) /\ (2 <= i -> ~ bad (fz (h hi)));
  f_thaw : forall n o c m lo hi, jb (h n) = Ins o c m lo hi false -> lvl (h n) = 1;
  f_new : forall n, jb (h n) = NewLk -> exists u, ub (h n) = UTo u }.

(** How the job of a node may change while others keep theirs. *)
Inductive tr (h h' : heap) (j j' : job K) : Prop :=
| T0 : j' = j -> tr h h' j j'
| T1 : neutral j' -> j <> NewLk -> (forall o c m lo hi, j <> Ins o c m lo hi false) ->
    (forall o L om lo hi, jv j = Some (o, L, om, lo, hi) -> lvl (h' L) = 0 -> over (h' L) = true) -> tr h h' j j'
| T2 o d m lo hi q lns : j = Full o d m lo hi (Some q) lns -> j' = Commit d lo hi lns 0 ->
    (lvl (h' d) = 0 -> over (h' d) = true) -> tr h h' j j'
| T3 o c m lo hi : j = Ins o c m lo hi false -> j' = Ins o c m lo hi true -> fz (h' lo) = Open -> tr h h' j j'
| T4 c lo hi lns i : j = Commit c lo hi lns i -> j' = Commit c lo hi lns (S i) ->
    (i = 0 -> fz (h' lo) = Open) -> (i = 1 -> fz (h' hi) = Open) -> i <= 1 -> tr h h' j j'.

Section frame.
Context (h h' : heap) (f f' : nat) (FI : FInv h f).
Hypothesis Z1 : forall y, f' <= y -> h' y = blank.
Hypothesis Z2 : forall y, fz (h' y) = fz (h y) \/ fz (h' y) = Open.
Hypothesis Z3 : forall y, y < f -> lvl (h' y) = lvl (h y).
Hypothesis Z3o : forall y, over (h y) = true -> over (h' y) = true.
Hypothesis Z4 : forall y, tr h h' (jb (h y)) (jb (h' y)).
Hypothesis Z5 : forall y u, In u (kids (h' y)) -> In u (kids (h y)) \/
  (neutral (jb (h' y)) /\ (lvl (h' y) = 1 -> fz (h' u) = Open) /\ forall n, lvl (h' n) = 1 -> ~ fp (jb (h' n)) u).
Hypothesis Z6 : forall y, need (jb (h y)) <> [] -> incl (kids (h y)) (kids (h' y)).
Hypothesis Z7 : forall y, jb (h y) = NewLk -> ub (h' y) = ub (h y).

Lemma fr_lvl y : h y <> blank -> lvl (h' y) = lvl (h y).
Proof.
  intros N. apply Z3. destruct (Nat.lt_ge_cases y f); auto. destruct N. now apply (f_blank _ _ FI).
Qed.
Lemma fr_new y : jb (h y) = NewLk -> jb (h' y) = NewLk.
Proof. intros E. destruct (Z4 y); congruence. Qed.
Lemma fr_jb y : jb (h y) <> Idle -> lvl (h' y) = lvl (h y).
Proof. intros E. apply fr_lvl. intros Q. rewrite Q in E. now apply E. Qed.
Lemma fr_need y a : In a (need (jb (h' y))) -> In a (need (jb (h y))) /\ (forall u, jh (jb (h y)) u -> jh (jb (h' y)) u).
Proof.
  destruct (Z4 y) as [E|N _ _ _|o d m lo hi q lns E E' _|o c m lo hi E E' _|c lo hi lns i E E' _ _ Hi].
  - rewrite E. auto.
  - destruct (jb (h' y)); destruct N; auto; intros [].
  - rewrite E, E'. cbn. auto.
  - rewrite E, E'. cbn. intros [].
  - rewrite E, E'. destruct i as [|[|i]]; [| |lia]; cbn; auto.
Qed.
Lemma fr_nd y : NoDup (need (jb (h' y))).
Proof.
  pose proof (f_nd _ _ FI y) as N0.
  destruct (Z4 y) as [E|N _ _ _|o d m lo hi q lns E E' _|o c m lo hi E E' _|c lo hi lns i E E' _ _ Hi].
  - now rewrite E.
  - destruct (jb (h' y)); destruct N; constructor.
  - rewrite E in N0. rewrite E'. exact N0.
  - rewrite E'. constructor.
  - rewrite E in N0. rewrite E'. destruct i as [|[|i]]; [| |lia]; exact N0.
Qed.
Lemma fr_fp n u : fp (jb (h' n)) u -> fp (jb (h n)) u /\ (isFull (jb (h n)) -> isFull (jb (h' n))).
Proof.
  destruct (Z4 n) as [E|N _ _ _|o d m lo hi q lns E E' _|o c m lo hi E E' _|c lo hi lns i E E' _ _ Hi].
  - rewrite E. auto.
  - destruct (jb (h' n)); destruct N; intros [].
  - rewrite E'. intros [].
  - rewrite E, E'. cbn. auto.
  - rewrite E'. intros [].
Qed.
Lemma f_frame : FInv h' f'.
Proof.
  constructor.
  - exact Z1.
  - intros L n L0 F. assert (fz (h L) = Orig n) as F0 by (destruct (Z2 L); congruence).
    assert (lvl (h L) = 0) as Ll. { rewrite <- L0. symmetry. apply fr_lvl. intros Q. rewrite Q in F0. discriminate. }
    destruct (f_orig _ _ FI L n Ll F0) as [O|(o & om & lo & hi & J)]; [left; auto|].
    destruct (Z4 n) as [E|_ _ _ A|o1 d m lo1 hi1 q lns E E' A|o1 c m lo1 hi1 E E' _|c lo1 hi1 lns i E E' _ _ Hi].
    + right. rewrite E. eauto.
    + left. eapply A; eauto.
    + left. rewrite E in J. injection J as <- <- <- <- <-. auto.
    + right. rewrite E in J. rewrite E'. injection J as <- <- <- <- <-. cbn. eauto.
    + rewrite E in J. discriminate.
  - intros n L L1 I B. destruct (Z5 n L I) as [I0|(_ & F & _)].
    2: { rewrite F in B by auto. destruct B. }
    assert (lvl (h n) = 1) as Ln. { rewrite <- L1. symmetry. apply fr_lvl. intros Q. rewrite Q in I0. destruct I0. }
    assert (bad (fz (h L))) as B0. { destruct (Z2 L) as [E|E]; rewrite E in B; [auto|destruct B]. }
    destruct (f_hold _ _ FI n L Ln I0 B0) as [N|(o & c & m & hi & J)]; [left; now apply fr_new|right].
    destruct (Z4 n) as [E|_ _ A _|o1 d m1 lo1 hi1 q lns E E' A|o1 c1 m1 lo1 hi1 E E' A|c1 lo1 hi1 lns i E E' _ _ Hi];
      try congruence.
    + rewrite E. eauto.
    + rewrite E in J. injection J as <- <- <- <- <-. rewrite A in B. destruct B.
  - intros n u y L1 P I. destruct (fr_fp n u P) as [P0 Q].
    assert (lvl (h n) = 1) as Ln. { rewrite <- L1. symmetry. apply fr_jb. intros X. rewrite X in P0. destruct P0. }
    destruct (Z5 y u I) as [I0|(_ & _ & X)]; [|exfalso; eapply X; eauto].
    destruct (f_priv _ _ FI n u y Ln P0 I0). split; auto. now apply fr_new.
  - intros y a A. destruct (fr_need y a A) as [A0 Hj]. destruct (f_need _ _ FI y a A0) as [N Q].
    split; [now apply fr_new|]. intros u I. destruct (Z5 a u I) as [I0|(X & _)].
    + destruct (Q u I0); [left; auto|right]. apply Z6; auto. intros X. rewrite X in A0. destruct A0.
    + rewrite (fr_new a N) in X. destruct X.
  - intros y1 y2 a A1 A2. apply fr_need in A1 as [A1 _]. apply fr_need in A2 as [A2 _]. eapply (f_disj _ _ FI); eauto.
  - exact fr_nd.
  - intros y c lo hi lns i L1 J.
    assert (forall z, ~ bad (fz (h z)) -> ~ bad (fz (h' z))) as Q.
    { intros z A B. destruct (Z2 z) as [E|E]; rewrite E in B; auto. }
    destruct (Z4 y) as [E|A _ _ _|o1 d m1 lo1 hi1 q lns1 E E' A|o1 c1 m1 lo1 hi1 E E' A|c1 lo1 hi1 lns1 i1 E E' A B Hi];
      try congruence.
    + rewrite E in J. assert (lvl (h y) = 1) as Ly by (rewrite <- L1; symmetry; apply fr_jb; congruence).
      destruct (f_stage _ _ FI _ _ _ _ _ _ Ly J). split; auto.
    + rewrite J in A. destruct A.
    + replace i with 0 by congruence. split; lia.
    + assert (lvl (h y) = 1) as Ly by (rewrite <- L1; symmetry; apply fr_jb; congruence).
      destruct (f_stage _ _ FI _ _ _ _ _ _ Ly E) as [S1 S2]. rewrite E' in J. injection J as <- <- <- <- <-.
      split; intros Hi1.
      * destruct (Nat.eq_dec i1 0) as [->|]; [rewrite A; auto|apply Q, S1; lia].
      * destruct (Nat.eq_dec i1 1) as [->|]; [rewrite B; auto|lia].
  - intros n o c m lo hi J.
    destruct (Z4 n) as [E|A _ _ _|o1 d m1 lo1 hi1 q lns1 E E' A|o1 c1 m1 lo1 hi1 E E' A|c1 lo1 hi1 lns1 i1 E E' A B Hi];
      try congruence.
    + rewrite E in J. rewrite <- (f_thaw _ _ FI _ _ _ _ _ _ J). apply fr_jb. congruence.
    + rewrite J in A. destruct A.
  - intros n J. destruct (Z4 n) as [E|A _ _ _| | |]; try congruence.
    + rewrite E in J. destruct (f_new _ _ FI n J) as [u U]. exists u. rewrite <- U. now apply Z7.
    + rewrite J in A. destruct A.
Qed.
End frame.
End fz.
