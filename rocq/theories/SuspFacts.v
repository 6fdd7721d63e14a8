(** * Invariants of suspended operations *)

Require Import List Arith Bool Lia.
Import ListNotations.
Require Import Verif.SuspModel Verif.SuspSpec.

Implicit Types (s : state) (k : task) (t a o c i j p e q r g : nat).

(** ** Arrays *)

Lemma upd_eq A (f : nat -> A) x v : upd f x v x = v.
Proof. unfold upd. now rewrite Nat.eqb_refl. Qed.

Lemma upd_ne A (f : nat -> A) x v y : y <> x -> upd f x v y = f y.
Proof. unfold upd. intro H. apply Nat.eqb_neq in H. now rewrite H. Qed.

Record AI s : Prop := {
  a_cur : forall c, cur s = Some c ->
    c < na s /\ rt (arrs s c) = None /\ par (arrs s c) = None /\ (forall i, kl (arrs s c) i = false);
  a_lnk : forall a o, a < na s -> lnk (arrs s a) = Some o ->
    cur s = Some a /\ o < na s /\ par (arrs s o) = Some a /\ rt (arrs s o) = None;
  a_kl : forall a i, a < na s -> i < ln (arrs s a) -> kl (arrs s a) i = false ->
    cur s = Some a \/ (exists c, cur s = Some c /\ lnk (arrs s c) = Some a);
  a_ln : forall a, a < na s -> exists e, ln (arrs s a) = 2 ^ e;
  a_ad : forall a b, a < na s -> b < na s -> fr (arrs s a) = false -> fr (arrs s b) = false ->
    ad (arrs s a) = ad (arrs s b) -> a = b;
  a_fr : forall a, a < na s -> rt (arrs s a) = None -> fr (arrs s a) = false }.

Lemma AI_init n : AI (init n).
Proof. split; cbn; intros; try discriminate; lia. Qed.

(** The invariant does not depend on tasks, clock or error. *)
Lemma AI_task s s' : cur s' = cur s -> arrs s' = arrs s -> na s' = na s -> AI s -> AI s'.
Proof.
  intros H1 H2 H3 [A B C D E F]. split; rewrite ?H1, ?H2, ?H3; auto.
Qed.

(** Changes of one array that keep everything but locks, kills and the rehashing state. *)
Lemma AI_arr s a x :
  AI s -> a < na s ->
  ln x = ln (arrs s a) -> ad x = ad (arrs s a) -> lnk x = lnk (arrs s a) ->
  par x = par (arrs s a) -> rt x = rt (arrs s a) -> fr x = fr (arrs s a) ->
  (forall i, kl (arrs s a) i = true -> kl x i = true) ->
  (cur s = Some a -> kl x = kl (arrs s a)) ->
  AI (set_arr s a x).
Proof.
  intros [A B C D E F] Ha H1 H2 H3 H4 H5 H6 H7 H8. split; cbn.
  - intros c Hc. destruct (A c Hc) as (A1 & A2 & A3 & A4).
    destruct (Nat.eq_dec c a) as [->|n]; [rewrite upd_eq|rewrite (upd_ne _ _ _ _ _ n)]; [|auto].
    rewrite H5, H4, (H8 Hc). auto.
  - intros b o Hb Hl.
    assert (Hl' : lnk (arrs s b) = Some o).
    { destruct (Nat.eq_dec b a) as [->|n]; [rewrite upd_eq in Hl|rewrite (upd_ne _ _ _ _ _ n) in Hl]; congruence. }
    destruct (B b o Hb Hl') as (B1 & B2 & B3 & B4).
    destruct (Nat.eq_dec o a) as [->|n]; [rewrite upd_eq|rewrite (upd_ne _ _ _ _ _ n)]; [|auto].
    rewrite H4, H5. auto.
  - intros b i Hb Hi Hk.
    assert (Hq : i < ln (arrs s b) /\ kl (arrs s b) i = false).
    { destruct (Nat.eq_dec b a) as [->|n]; [rewrite upd_eq in *|rewrite (upd_ne _ _ _ _ _ n) in *]; [|auto].
      split; [congruence|]. destruct (kl (arrs s a) i) eqn:Q; [|reflexivity].
      rewrite (H7 i Q) in Hk. discriminate. }
    destruct Hq as [Q1 Q2]. destruct (C b i Hb Q1 Q2) as [X|(c & X & Y)]; [now left|].
    right. exists c. split; [exact X|].
    destruct (Nat.eq_dec c a) as [->|n]; [rewrite upd_eq|rewrite (upd_ne _ _ _ _ _ n)]; congruence.
  - intros b Hb. destruct (D b Hb) as [e He]. exists e.
    destruct (Nat.eq_dec b a) as [->|n]; [rewrite upd_eq|rewrite (upd_ne _ _ _ _ _ n)]; congruence.
  - intros b b' Hb Hb' X Y Z. apply E; auto.
    + destruct (Nat.eq_dec b a) as [->|n]; [rewrite upd_eq in X|rewrite (upd_ne _ _ _ _ _ n) in X]; congruence.
    + destruct (Nat.eq_dec b' a) as [->|n]; [rewrite upd_eq in Y|rewrite (upd_ne _ _ _ _ _ n) in Y]; congruence.
    + assert (W : forall z, ad (upd (arrs s) a x z) = ad (arrs s z)).
      { intro z. destruct (Nat.eq_dec z a) as [->|n]; [rewrite upd_eq|rewrite (upd_ne _ _ _ _ _ n)]; congruence. }
      now rewrite !W in Z.
  - intros b Hb X. 
    destruct (Nat.eq_dec b a) as [->|n]; [rewrite upd_eq in *|rewrite (upd_ne _ _ _ _ _ n) in *]; [|auto].
    rewrite H6. apply F; [exact Ha|congruence].
Qed.

(** Unlinking an old array all of whose buckets are killed. *)
Lemma AI_unlink s a o :
  AI s -> a < na s -> lnk (arrs s a) = Some o ->
  (forall i, i < ln (arrs s o) -> kl (arrs s o) i = true) ->
  AI (set_lnk s a None).
Proof.
  intros [A B C D E F] Ha Hl Hk.
  destruct (B a o Ha Hl) as (Hc & Ho & Hp & Hr).
  assert (Hne : o <> a). { intros ->. destruct (A a Hc) as (_ & _ & X & _). congruence. }
  unfold set_lnk. split; cbn.
  - intros c Hc'. destruct (A c Hc') as (A1 & A2 & A3 & A4).
    destruct (Nat.eq_dec c a) as [->|n]; [rewrite upd_eq|rewrite (upd_ne _ _ _ _ _ n)]; cbn; auto.
  - intros b o' Hb Hl'.
    destruct (Nat.eq_dec b a) as [->|n]; [rewrite upd_eq in Hl'; discriminate|rewrite (upd_ne _ _ _ _ _ n) in Hl'].
    destruct (B b o' Hb Hl') as (B1 & _). congruence.
  - intros b i Hb Hi Hk'.
    assert (Hq : i < ln (arrs s b) /\ kl (arrs s b) i = false).
    { destruct (Nat.eq_dec b a) as [->|n]; [rewrite upd_eq in *|rewrite (upd_ne _ _ _ _ _ n) in *]; auto. }
    destruct Hq as [Q1 Q2]. destruct (C b i Hb Q1 Q2) as [X|(c & X & Y)]; [now left|].
    exfalso. assert (c = a) by congruence. subst c. assert (b = o) by congruence. subst b.
    rewrite (Hk i Q1) in Q2. discriminate.
  - intros b Hb. destruct (D b Hb) as [e He]. exists e.
    destruct (Nat.eq_dec b a) as [->|n]; [rewrite upd_eq|rewrite (upd_ne _ _ _ _ _ n)]; auto.
  - intros b b' Hb Hb' X Y Z. apply E; auto.
    + destruct (Nat.eq_dec b a) as [->|n]; [rewrite upd_eq in X|rewrite (upd_ne _ _ _ _ _ n) in X]; auto.
    + destruct (Nat.eq_dec b' a) as [->|n]; [rewrite upd_eq in Y|rewrite (upd_ne _ _ _ _ _ n) in Y]; auto.
    + revert Z. unfold upd. destruct (b =? a) eqn:Q1; destruct (b' =? a) eqn:Q2; cbn; auto;
      apply Nat.eqb_eq in Q1 || apply Nat.eqb_eq in Q2; subst; auto; intros; auto.
      apply Nat.eqb_eq in Q2. now subst.
  - intros b Hb X.
    destruct (Nat.eq_dec b a) as [->|n]; [rewrite upd_eq in *|rewrite (upd_ne _ _ _ _ _ n) in *]; cbn in *; auto.
Qed.

(** Handing over an array that is neither current nor linked. *)
Lemma AI_retire s o :
  AI s -> o < na s -> cur s <> Some o -> (forall c, c < na s -> lnk (arrs s c) <> Some o) ->
  AI (retire s o).
Proof.
  intros [A B C D E F] Ho H1 H2. unfold retire. split; cbn.
  - intros c Hc. rewrite (upd_ne _ _ _ _ _ (fun X => H1 (eq_trans Hc (f_equal Some X)))). auto.
  - intros a o' Ha Hl.
    assert (Hl' : lnk (arrs s a) = Some o').
    { destruct (Nat.eq_dec a o) as [->|n]; [rewrite upd_eq in Hl|rewrite (upd_ne _ _ _ _ _ n) in Hl]; auto. }
    assert (n : o' <> o). { intros ->. exact (H2 a Ha Hl'). }
    rewrite (upd_ne _ _ _ _ _ n). auto.
  - intros b i Hb Hi Hk.
    assert (Hq : i < ln (arrs s b) /\ kl (arrs s b) i = false).
    { destruct (Nat.eq_dec b o) as [->|n]; [rewrite upd_eq in *|rewrite (upd_ne _ _ _ _ _ n) in *]; auto. }
    destruct Hq as [Q1 Q2]. destruct (C b i Hb Q1 Q2) as [X|(c & X & Y)]; [now left|].
    right. exists c. split; [exact X|].
    destruct (Nat.eq_dec c o) as [->|n]; [rewrite upd_eq|rewrite (upd_ne _ _ _ _ _ n)]; auto.
  - intros b Hb. destruct (D b Hb) as [e He]. exists e.
    destruct (Nat.eq_dec b o) as [->|n]; [rewrite upd_eq|rewrite (upd_ne _ _ _ _ _ n)]; auto.
  - intros b b' Hb Hb' X Y Z. 
    assert (W : forall z, fr (upd (arrs s) o (mkA (ln (arrs s o)) (ad (arrs s o)) (lnk (arrs s o)) (pos (arrs s o)) (refs (arrs s o)) (kl (arrs s o)) (lk (arrs s o)) (par (arrs s o)) (Some (clk s)) (fr (arrs s o))) z) = fr (arrs s z) /\ ad (upd (arrs s) o (mkA (ln (arrs s o)) (ad (arrs s o)) (lnk (arrs s o)) (pos (arrs s o)) (refs (arrs s o)) (kl (arrs s o)) (lk (arrs s o)) (par (arrs s o)) (Some (clk s)) (fr (arrs s o))) z) = ad (arrs s z)).
    { intro z. destruct (Nat.eq_dec z o) as [->|n]; [rewrite upd_eq|rewrite (upd_ne _ _ _ _ _ n)]; auto. }
    rewrite (proj1 (W b)) in X. rewrite (proj1 (W b')) in Y.
    rewrite (proj2 (W b)), (proj2 (W b')) in Z. auto.
  - intros b Hb X.
    destruct (Nat.eq_dec b o) as [->|n]; [rewrite upd_eq in X; discriminate|rewrite (upd_ne _ _ _ _ _ n) in *]; auto.
Qed.

(** A bucket that is not killed belongs to an array that is in use. *)
Lemma live_bucket s a i : AI s -> a < na s -> i < ln (arrs s a) -> kl (arrs s a) i = false ->
  rt (arrs s a) = None /\ fr (arrs s a) = false.
Proof.
  intros H Ha Hi Hk.
  assert (R : rt (arrs s a) = None).
  { destruct (a_kl s H a i Ha Hi Hk) as [X|(c & X & Y)].
    - destruct (a_cur s H a X) as (_ & R & _). exact R.
    - destruct (a_cur s H c X) as (Hc & _). destruct (a_lnk s H c a Hc Y) as (_ & _ & _ & R). exact R. }
  split; [exact R|]. exact (a_fr s H a Ha R).
Qed.

(** ... and if that array was replaced by [c], [c] is still current and still links it. *)
Lemma live_old s o c i : AI s -> o < na s -> i < ln (arrs s o) -> kl (arrs s o) i = false ->
  par (arrs s o) = Some c -> cur s = Some c /\ lnk (arrs s c) = Some o.
Proof.
  intros H Ha Hi Hk Hp.
  destruct (a_kl s H o i Ha Hi Hk) as [X|(c' & X & Y)].
  - destruct (a_cur s H o X) as (_ & _ & R & _). congruence.
  - destruct (a_cur s H c' X) as (Hc & _). destruct (a_lnk s H c' o Hc Y) as (_ & _ & R & _).
    assert (c' = c) by congruence. subst. auto.
Qed.

Lemma cur_lt s c : AI s -> cur s = Some c -> c < na s.
Proof. intros H X. exact (proj1 (a_cur s H c X)). Qed.

Lemma cur_fr s c : AI s -> cur s = Some c -> fr (arrs s c) = false.
Proof.
  intros H X. destruct (a_cur s H c X) as (A & B & _). exact (a_fr s H c A B).
Qed.

Lemma lnk_fr s a o : AI s -> a < na s -> lnk (arrs s a) = Some o -> fr (arrs s o) = false.
Proof.
  intros H Ha X. destruct (a_lnk s H a o Ha X) as (_ & A & _ & B). exact (a_fr s H o A B).
Qed.

(** ** Index ranges *)

Lemma pow_pos e : 0 < 2 ^ e.
Proof. induction e; cbn; lia. Qed.

Lemma range_lt e1 e2 i : i < 2 ^ e1 -> 
  let '(lo, hi) := index_range (2 ^ e1) (2 ^ e2) i in lo < hi /\ hi <= 2 ^ e2.
Proof.
  intro H. unfold index_range.
  destruct (2 ^ e1 <? 2 ^ e2) eqn:Q.
  - apply Nat.ltb_lt in Q.
    assert (L : e1 < e2). { apply (Nat.pow_lt_mono_r_iff 2); [lia|exact Q]. }
    assert (X : 2 ^ e2 = 2 ^ (e2 - e1) * 2 ^ e1). { rewrite <- Nat.pow_add_r. f_equal. lia. }
    rewrite X. rewrite Nat.div_mul by (pose proof (pow_pos e1); lia).
    pose proof (pow_pos (e2 - e1)). split; nia.
  - apply Nat.ltb_ge in Q.
    assert (L : e2 <= e1). { apply (Nat.pow_le_mono_r_iff 2); [lia|exact Q]. }
    assert (X : 2 ^ e1 = 2 ^ (e1 - e2) * 2 ^ e2). { rewrite <- Nat.pow_add_r. f_equal. lia. }
    rewrite X in H |- *. rewrite Nat.div_mul by (pose proof (pow_pos e2); lia).
    assert (i / 2 ^ (e1 - e2) < 2 ^ e2).
    { apply Nat.div_lt_upper_bound; [pose proof (pow_pos (e1 - e2)); lia|exact H]. }
    lia.
Qed.

(** ** Tasks *)

(** The task's guard is older than the array's retirement. *)
Definition prot s k a : Prop :=
  exists g, gd k = Some g /\ a < na s /\ fr (arrs s a) = false /\
            (forall r, rt (arrs s a) = Some r -> g < r).

Definition hold s t a i : Prop :=
  a < na s /\ i < ln (arrs s a) /\ kl (arrs s a) i = false /\ lk (arrs s a) i = Some t.

Definition act s t k : Prop :=
  In t (refs (arrs s (old k))) /\ cur s = Some (rf k) /\ lnk (arrs s (rf k)) = Some (old k).

Definition closing s k : Prop :=
  cur s = Some (rf k) /\ lnk (arrs s (rf k)) = Some (old k) /\ refs (arrs s (old k)) = [] /\
  ln (arrs s (old k)) <= pos (arrs s (old k)) /\
  (forall i, i < ln (arrs s (old k)) -> kl (arrs s (old k)) i = true).

Definition closer s k : Prop :=
  match at_ k with
  | PUnl => True
  | PEnd2 q => ln (arrs s (old k)) <= q
  | _ => False
  end.

Definition range_ok s k p e : Prop := e = Nat.min (p + chunk) (ln (arrs s (old k))).

Definition cont_ok s t k (c : cont) i : Prop :=
  hold s t (old k) i /\ par (arrs s (old k)) = Some (rf k) /\ rf k < na s /\
  match c with
  | KR p e => act s t k /\ p <= i /\ i < e /\ range_ok s k p e
  | KD hi => i < hi /\ hi <= ln (arrs s (old k))
  end.

Definition old_ok s k : Prop := par (arrs s (old k)) = Some (rf k).

Definition is_scan (x : kind) : bool := match x with Key _ => false | _ => true end.

Definition six s k : Prop :=
  is_scan (kd k) = true ->
  match at_ k with
  | PDone => True
  | PLoad => (pl k = 0 /\ ix k = 0) \/ (exists e, pl k = 2 ^ e /\ ix k < pl k)
  | PNext => pl k = ln (arrs s (rf k)) /\ ix k <= pl k
  | _ => rf k < na s /\ pl k = ln (arrs s (rf k)) /\ ix k < pl k
  end.

Definition rsafe s k : Prop :=
  rf k < na s /\ (kd k = ScanR -> fr (arrs s (rf k)) = false).

Definition TI s t k : Prop :=
  (forall g, gd k = Some g -> g < clk s) /\ six s k /\
  match at_ k with
  | PDone => gd k = None
  | PLoad => True
  | PHas | PRh | PLock | PNext => prot s k (rf k)
  | PRb _ p e i => act s t k /\ p <= i /\ i <= e /\ range_ok s k p e
  | PRel c i => cont_ok s t k c i
  | PTgt _ c i lo hi j =>
      cont_ok s t k c i /\ lo <= j /\ j <= hi /\ hi <= ln (arrs s (rf k)) /\
      (forall j', lo <= j' -> j' < j -> lk (arrs s (rf k)) j' = Some t)
  | PEnd _ => act s t k
  | PEnd2 q => rf k < na s /\ old k < na s /\ fr (arrs s (rf k)) = false /\
               fr (arrs s (old k)) = false /\ (closer s k -> closing s k)
  | PUnl => closing s k
  | PUnl2 => rf k < na s /\ old k < na s /\ fr (arrs s (rf k)) = false /\
             old_ok s k /\ lnk (arrs s (rf k)) = None
  | PIdx => rf k < na s /\ fr (arrs s (rf k)) = false
  | PChk j => rf k < na s /\ fr (arrs s (rf k)) = false /\ j < ln (arrs s (rf k))
  | PDd false i hi => prot s k (rf k) /\ prot s k (old k) /\ old_ok s k /\ hi <= ln (arrs s (old k))
  | PDd true i hi => gd k = None /\ rsafe s k /\ old k < na s /\ old_ok s k /\ i < hi /\
                     hi <= ln (arrs s (old k))
  | PDc i hi => prot s k (rf k) /\ prot s k (old k) /\ old_ok s k /\ hi <= ln (arrs s (old k))
  | PLk false i => prot s k (rf k) /\ i < ln (arrs s (rf k))
  | PLk true i => rsafe s k /\ i < ln (arrs s (rf k))
  | PGot i => hold s t (rf k) i
  | PBrk => rsafe s k
  end.

(** The task will still visit old bucket [i]. *)
Definition works k o i : Prop :=
  old k = o /\
  match at_ k with
  | PRb _ p e j | PRel (KR p e) j | PTgt _ (KR p e) j _ _ _ => p <= i /\ i < e /\ j <= i
  | _ => False
  end.

Definition COV s : Prop :=
  forall c o i, cur s = Some c -> lnk (arrs s c) = Some o ->
  i < pos (arrs s o) -> i < ln (arrs s o) -> kl (arrs s o) i = false ->
  exists t, works (tks s t) o i.

Definition CL s : Prop :=
  forall t t', closer s (tks s t) -> closer s (tks s t') -> t = t'.

Record INV s : Prop := {
  v_ai : AI s;
  v_ti : forall t, TI s t (tks s t);
  v_cov : COV s;
  v_cl : CL s;
  v_pos : forall a, a < na s -> par (arrs s a) = None -> pos (arrs s a) = 0;
  v_nt : forall t, nt s <= t -> at_ (tks s t) = PDone;
  v_err : err s = None }.

Lemma INV_init n : INV (init n).
Proof.
  split.
  - apply AI_init.
  - intro t. cbn. repeat split; discriminate.
  - intros c o i X. discriminate X.
  - intros t t' X. destruct X.
  - reflexivity.
  - reflexivity.
  - reflexivity.
Qed.
