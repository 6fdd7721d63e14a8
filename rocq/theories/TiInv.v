(** The invariant of the linked list of leaves, relative to the tree. *)
From Coq Require Import List Arith Bool Lia.
From Verif Require Import TcModel TcRoute TcSpec TcInv TcTree TcFrame TiModel.
Import ListNotations.

(** One or more links. *)
Inductive Nx (nx : nat -> option nat) : nat -> nat -> Prop :=
| Nx1 a b : nx a = Some b -> Nx nx a b
| NxS a b c : nx a = Some b -> Nx nx b c -> Nx nx a c.
Definition unl (nx : nat -> option nat) (y : nat) : Prop := nx y = None /\ forall a, nx a <> Some y.

Section nx.
Context (nx : nat -> option nat) (Inj : forall a b c, nx a = Some c -> nx b = Some c -> a = b)
  (Acy : forall a, ~ Nx nx a a).
Lemma nx_trans a b c : Nx nx a b -> Nx nx b c -> Nx nx a c.
Proof. induction 1; intros; eapply NxS; eauto. Qed.
Lemma nx_pred a b c : nx b = Some c -> Nx nx a c -> a = b \/ Nx nx a b.
Proof.
  intros E H. induction H as [a c H|a d c H H' IH].
  - left. eapply Inj; eauto.
  - destruct (IH E) as [->|IH']; right; [now constructor|eapply NxS; eauto].
Qed.
Lemma nx_succ a b c : nx a = Some b -> Nx nx a c -> b = c \/ Nx nx b c.
Proof. intros E H. inversion H; subst; [left|right]; congruence. Qed.
Lemma nx_unl_r a y : unl nx y -> ~ Nx nx a y.
Proof. intros [_ U] H. induction H; auto. now apply (U a). Qed.
Lemma nx_unl_l a y : unl nx y -> ~ Nx nx y a.
Proof. intros [U _] H. inversion H; congruence. Qed.
Lemma nx_ne a b : Nx nx a b -> a <> b.
Proof. intros H ->. now apply Acy in H. Qed.
End nx.

(** [x] is put behind [y]. *)
Section push.
Context (nx : nat -> option nat) (y x : nat) (Inj : forall a b c, nx a = Some c -> nx b = Some c -> a = b)
  (Acy : forall a, ~ Nx nx a a) (Un : unl nx x) (Ne : y <> x).
Definition nx' : nat -> option nat := upd (upd nx x (nx y)) y (Some x).
Lemma p_eq a : nx' a = if a =? y then Some x else if a =? x then nx y else nx a.
Proof. reflexivity. Qed.
Lemma p_y : nx' y = Some x.
Proof. rewrite p_eq, Nat.eqb_refl. auto. Qed.
Lemma p_x : nx' x = nx y.
Proof. rewrite p_eq, Nat.eqb_refl. destruct (Nat.eqb_spec x y); [congruence|auto]. Qed.
Lemma p_o a : a <> y -> a <> x -> nx' a = nx a.
Proof. intros. rewrite p_eq. destruct (Nat.eqb_spec a y); [congruence|]. destruct (Nat.eqb_spec a x); [congruence|auto]. Qed.
Lemma p_inj a b c : nx' a = Some c -> nx' b = Some c -> a = b.
Proof.
  destruct Un as [U1 U2].
  destruct (Nat.eq_dec a y) as [->|A1]; [|destruct (Nat.eq_dec a x) as [->|A2]];
  (destruct (Nat.eq_dec b y) as [->|B1]; [|destruct (Nat.eq_dec b x) as [->|B2]]);
  rewrite ?p_y, ?p_x, ?p_o by auto; intros E1 E2; auto; try congruence;
  repeat match goal with H : Some x = Some c |- _ => injection H as <- end;
  try (exfalso; eapply U2; eassumption); try (exfalso; now apply (Inj y b c) in E1); try (exfalso; now apply (Inj a y c) in E1);
  eauto.
  exfalso. apply B1. eapply Inj; eauto.
Qed.
Lemma p_keep a b : Nx nx a b -> Nx nx' a b.
Proof.
  intros H. assert (forall a b, nx a = Some b -> Nx nx' a b) as S.
  { clear a b H. intros a b E. destruct (Nat.eq_dec a y) as [->|A1].
    - apply (NxS _ _ x); [apply p_y|constructor; now rewrite p_x].
    - constructor. rewrite p_o; auto. intros ->. destruct Un. congruence. }
  induction H; [now apply S|]. eapply nx_trans; eauto.
Qed.
Lemma p_inv a b : Nx nx' a b ->
  (a <> x -> b <> x -> Nx nx a b) /\ (a <> x -> b = x -> a = y \/ Nx nx a y) /\ (a = x -> b <> x -> Nx nx y b)
  /\ (a = x -> b = x -> Nx nx y y).
Proof.
  destruct Un as [U1 U2].
  induction 1 as [a b E|a c b E H IH].
  - destruct (Nat.eq_dec a y) as [->|A1]; [|destruct (Nat.eq_dec a x) as [->|A2]]; rewrite ?p_y, ?p_x, ?p_o in E by auto.
    + injection E as <-. repeat split; intros; auto; congruence.
    + repeat split; intros; try congruence; try (now constructor); subst; exfalso; eapply U2; eauto.
    + repeat split; intros; try congruence; try (now constructor); subst; exfalso; eapply U2; eauto.
  - destruct IH as (I1 & I2 & I3 & I4).
    destruct (Nat.eq_dec a y) as [->|A1]; [|destruct (Nat.eq_dec a x) as [->|A2]]; rewrite ?p_y, ?p_x, ?p_o in E by auto.
    + injection E as <-. repeat split; intros; auto; try congruence.
    + assert (c <> x) as C by (intros ->; eapply U2; eauto).
      assert (Nx nx y c) as N1 by now constructor.
      repeat split; intros; try congruence; [eapply nx_trans; eauto|]. destruct (I2 C) as [->|I]; auto. eapply nx_trans; eauto.
    + assert (c <> x) as C by (intros ->; eapply U2; eauto).
      assert (Nx nx a c) as N1 by now constructor.
      repeat split; intros; try congruence; [eapply nx_trans; eauto|]. right. destruct (I2 C) as [->|I]; auto. eapply nx_trans; eauto.
Qed.
Lemma p_acy a : ~ Nx nx' a a.
Proof.
  intros H. apply p_inv in H as (I1 & _ & _ & I4). destruct (Nat.eq_dec a x) as [->|N].
  - now apply (Acy y), I4.
  - now apply (Acy a), I1.
Qed.
Lemma p_to_x a : a <> x -> (a = y \/ Nx nx a y) -> Nx nx' a x.
Proof. intros N [->|H]; [constructor; apply p_y|]. apply (nx_trans _ a y x); [now apply p_keep|]. constructor. apply p_y. Qed.
Lemma p_from_x b : Nx nx y b -> Nx nx' x b.
Proof. intros H. assert (b <> x) by (intros ->; now apply nx_unl_r in H). apply p_keep in H. destruct (nx_succ nx' y x b p_y H) as [->|H']; auto. congruence. Qed.
Lemma p_unl z : z <> x -> z <> y -> unl nx z -> unl nx' z.
Proof.
  intros N1 N2 [Z1 Z2]. split; [now rewrite p_o|]. intros a E. destruct (Nat.eq_dec a y) as [->|A1]; [|destruct (Nat.eq_dec a x) as [->|A2]];
    rewrite ?p_y, ?p_x, ?p_o in E by auto; [congruence|now apply (Z2 y)|now apply (Z2 a)].
Qed.
End push.

Section inv.
Context {K V : Type} (leb : K -> K -> bool).
Notation heap := (nat -> obj K V).
Notation On := (On leb).
Notation Live := (Live leb).
Implicit Types (h : heap) (k : K) (y z w n L lo hi : nat).
Notation tpt := (nat -> option (nat * nat * nat)).

(** The origin, the low and the high leaf of the split that a leaf node is working on. *)
Definition tpf h (sg : nat -> stg) n : option (nat * nat * nat) :=
  if lvl (h n) =? 1 then
    match jb (h n) with
    | Swap0 _ c lo => Some (c, lo, lo)
    | Split _ c _ lo hi | Ins _ c _ lo hi _ | Full _ c _ lo hi _ _ => Some (c, lo, hi)
    | Commit c lo hi _ 0 => match sg n with GLo => Some (c, lo, hi) | _ => None end
    | _ => None
    end
  else None.
Definition mem L lo hi y : Prop := y = L \/ y = lo \/ y = hi.
(** Those of them that are linked. *)
Definition lmem (g : stg) L lo hi y : Prop :=
  match g with
  | GHi => y = L \/ y = hi
  | GLo | GDel | GRb1 | GRb2 => mem L lo hi y
  | _ => False
  end.
(** Where a leaf counts in the order of the list: the leaves of a split count as its high leaf. *)
Definition Pt (tp : tpt) (sg : nat -> stg) y c : Prop :=
  (exists n L lo, tp n = Some (L, lo, c) /\ lmem (sg n) L lo c y)
  \/ (c = y /\ forall n L lo hi, tp n = Some (L, lo, hi) -> ~ lmem (sg n) L lo hi y).
(** Of the same split, or equal. *)
Definition Fm (tp : tpt) y z : Prop :=
  y = z \/ exists n L lo hi, tp n = Some (L, lo, hi) /\ (y = L /\ (z = lo \/ z = hi) \/ z = L /\ (y = lo \/ y = hi)).

Definition klt (a b : K) : Prop := leb b a = false.
Record Blk h r (f : nat) nx dl (g : stg) n L lo hi : Prop := {
  b_lt : L < f /\ lo < f /\ hi < f;
  b_lv : lvl (h L) = 0 /\ lvl (h lo) = 0 /\ lvl (h hi) = 0;
  b_ne : L <> lo /\ L <> hi;
  b_fz : fz (h L) = Orig n;
  b_g : g = G0 \/ (g = GHi /\ lo <> hi) \/ g = GLo \/ g = GDel \/ g = GRb1 \/ g = GRb2;
  b_nx : match g with
    | G0 => unl nx lo /\ unl nx hi
    | GHi => nx L = Some hi /\ unl nx lo
    | _ => nx L = Some lo /\ (lo = hi \/ nx lo = Some hi) end;
  b_dL : dl L = true <-> g = GDel;
  b_dlo : g <> GRb2 -> dl lo = false;
  b_dhi : g <> GRb1 -> g <> GRb2 -> dl hi = false;
  b_nl : g = G0 \/ g = GHi -> ~ Live h r lo /\ ~ Live h r hi;
  b_cont : g <> GDel -> forall e, In e (ents (h L)) <-> In e (ents (h lo)) \/ In e (ents (h hi));
  b_sep : lo <> hi -> forall a b, In a (ents (h lo)) -> In b (ents (h hi)) -> klt (fst a) (fst b) }.

Record LInv h (f : nat) r (nx : nat -> option nat) (dl : nat -> bool) (sg : nat -> stg) (tp : tpt) : Prop := {
  q_nd : forall y, NoDup (map fst (ents (h y)));
  q_inj : forall a b c, nx a = Some c -> nx b = Some c -> a = b;
  q_acy : forall a, ~ Nx nx a a;
  q_lt : forall a b, nx a = Some b -> a < f /\ b < f /\ lvl (h a) = 0 /\ lvl (h b) = 0;
  q_dlt : forall y, dl y = true -> y < f;
  q_bd : forall n n' L lo hi L' lo' hi' y, tp n = Some (L, lo, hi) -> tp n' = Some (L', lo', hi') ->
    mem L lo hi y -> mem L' lo' hi' y -> n = n';
  q_blk : forall n L lo hi, tp n = Some (L, lo, hi) -> n < f /\ Blk h r f nx dl (sg n) n L lo hi;
  q_rz : forall y e, y < f -> lvl (h y) = 0 -> dl y = false -> In e (ents (h y)) ->
    exists z, On h r (fst e) z /\ lvl (h z) = 0 /\ In e (ents (h z)) /\ Fm tp y z;
  q_ord : forall k1 k2 z1 z2 w1 w2, klt k1 k2 -> On h r k1 z1 -> On h r k2 z2 -> lvl (h z1) = 0 -> lvl (h z2) = 0 ->
    Pt tp sg z1 w1 -> Pt tp sg z2 w2 -> w1 = w2 \/ Nx nx w1 w2;
  q_dl : forall k y, On h r k y -> lvl (h y) = 0 -> dl y = true ->
    (exists n lo hi, tp n = Some (y, lo, hi) /\ sg n = GDel) \/ ret (h y) = true;
  q_dfz : forall y, dl y = true -> lvl (h y) = 0 -> fz (h y) <> Open \/ ret (h y) = true }.
End inv.
