(** Proofs about the packed LRU list: refinement to an explicit recency list. *)
From stdpp Require Import prelude list.
From Coq Require Import Lia.
From Verif Require Import LruModel LruSpec.

Definition fn (l : dll) (i : nat) : nat * nat := default (0, 0) (l !! i).
Definition lnk (f : nat -> nat * nat) (a b : nat) : Prop := (f a).2 = b /\ (f b).1 = a.
Fixpoint seg (f : nat -> nat * nat) (a : nat) (s : list nat) (b : nat) : Prop :=
  match s with [] => lnk f a b | x :: s' => lnk f a x /\ seg f x s' b end.

Lemma seg_app f s1 : forall a x s2 b,
  seg f a (s1 ++ x :: s2) b <-> seg f a s1 x /\ seg f x s2 b.
Proof.
  induction s1 as [|y s1 IH]; intros a x s2 b; simpl; [tauto|].
  rewrite IH. tauto.
Qed.

Lemma in_rot (x y : nat) s : y ∈ s ++ [x] <-> y ∈ x :: s.
Proof. rewrite elem_of_app, elem_of_list_singleton, elem_of_cons. tauto. Qed.

Lemma seg_frame f g s : forall a b,
  (forall y, y ∈ a :: s -> (g y).2 = (f y).2) ->
  (forall y, y ∈ s ++ [b] -> (g y).1 = (f y).1) ->
  seg f a s b -> seg g a s b.
Proof.
  induction s as [|x s IH]; intros a b H2 H1; simpl.
  - intros [A B]. split.
    + rewrite H2 by set_solver. exact A.
    + rewrite H1 by set_solver. exact B.
  - intros [[A B] S]. split; [split|].
    + rewrite H2 by set_solver. exact A.
    + rewrite H1 by set_solver. exact B.
    + apply IH; [| |exact S].
      * intros y Hy. apply H2. set_solver.
      * intros y Hy. apply H1. set_solver.
Qed.

Lemma seg_first f a s b : seg f a s b -> (f a).2 ∈ s ++ [b].
Proof. destruct s; simpl; [intros [-> _]|intros [[-> _] _]]; set_solver. Qed.
Lemma seg_last f s : forall a b, seg f a s b -> (f b).1 ∈ a :: s.
Proof.
  induction s as [|x s IH]; intros a b; simpl.
  - intros [_ ->]. set_solver.
  - intros [_ S]. apply IH in S. set_solver.
Qed.

(** Closure: all neighbours of members are members. *)
Lemma seg_next_in f s : forall a b y, seg f a s b -> y ∈ a :: s -> (f y).2 ∈ s ++ [b].
Proof.
  induction s as [|x s IH]; intros a b y S Hy; simpl in *.
  - apply elem_of_list_singleton in Hy. subst. destruct S as [-> _]. set_solver.
  - destruct S as [[A B] S]. apply elem_of_cons in Hy as [->|Hy].
    + rewrite A. set_solver.
    + specialize (IH _ _ _ S Hy). set_solver.
Qed.

(** The two neighbours of a member point back to it. *)
Lemma seg_back_next f s : forall a b y, seg f a s b -> y ∈ a :: s -> (f (f y).2).1 = y.
Proof.
  induction s as [|x s IH]; intros a b y S Hy; simpl in *.
  - apply elem_of_list_singleton in Hy. subst. destruct S as [-> ->]. done.
  - destruct S as [[A B] S]. apply elem_of_cons in Hy as [->|Hy].
    + rewrite A. done.
    + eauto.
Qed.
Lemma seg_back_prev f s : forall a b y, seg f a s b -> y ∈ s ++ [b] -> (f (f y).1).2 = y.
Proof.
  induction s as [|x s IH]; intros a b y S Hy; simpl in *.
  - apply elem_of_list_singleton in Hy. subst. destruct S as [<- ->]. done.
  - destruct S as [[A B] S]. apply elem_of_cons in Hy as [->|Hy].
    + rewrite B. done.
    + eauto.
Qed.
Lemma seg_prev_in f s : forall a b y, seg f a s b -> y ∈ s ++ [b] -> (f y).1 ∈ a :: s.
Proof.
  induction s as [|x s IH]; intros a b y S Hy; simpl in *.
  - apply elem_of_list_singleton in Hy. subst. destruct S as [_ ->]. set_solver.
  - destruct S as [[A B] S]. apply elem_of_cons in Hy as [->|Hy].
    + rewrite B. set_solver.
    + specialize (IH _ _ _ S Hy). set_solver.
Qed.

(** A path that stays within a set closed under "next". *)
Lemma seg_closed f (P : nat -> Prop) s : forall a b,
  (forall y, P y -> P (f y).2) -> P a -> seg f a s b -> Forall P s.
Proof.
  induction s as [|x s IH]; intros a b C Pa S; [constructor|].
  destruct S as [[A B] S]. assert (P x) by (rewrite <- A; auto).
  constructor; [done|]. eauto.
Qed.

Lemma seg_rotate f x y s : seg f x (y :: s) x -> seg f y (s ++ [x]) y.
Proof. simpl. intros [L S]. apply seg_app. simpl. tauto. Qed.

Definition upd (f : nat -> nat * nat) (i : nat) (v : nat * nat) : nat -> nat * nat :=
  fun j => if decide (i = j) then v else f j.
Lemma upd_eq f i v : upd f i v i = v.
Proof. unfold upd. by rewrite decide_True. Qed.
Lemma upd_ne f i j v : i <> j -> upd f i v j = f j.
Proof. intros. unfold upd. by rewrite decide_False. Qed.
Lemma upd_1 f i v j : (upd f i (v, (f i).2) j).2 = (f j).2.
Proof. unfold upd. destruct (decide (i = j)); by subst. Qed.
Lemma upd_2 f i v j : (upd f i ((f i).1, v) j).1 = (f j).1.
Proof. unfold upd. destruct (decide (i = j)); by subst. Qed.

(** Unlinking [e] from between its neighbours. *)
Definition unlink (f : nat -> nat * nat) (p n : nat) : nat -> nat * nat :=
  let f1 := upd f p (set_1 n (f p)) in upd f1 n (set_0 p (f1 n)).

Lemma unlink_1 f p n y : (unlink f p n y).1 = if decide (n = y) then p else (f y).1.
Proof.
  unfold unlink, set_0, set_1, upd. repeat case_decide; subst; simpl; done.
Qed.
Lemma unlink_2 f p n y : (unlink f p n y).2 = if decide (p = y) then n else (f y).2.
Proof.
  unfold unlink, set_0, set_1, upd. repeat case_decide; subst; simpl; done.
Qed.

Lemma unlink_mid f x s1 e s2 :
  NoDup (x :: s1 ++ e :: s2) -> seg f x (s1 ++ e :: s2) x ->
  seg (unlink f (f e).1 (f e).2) x (s1 ++ s2) x.
Proof.
  intros ND S. apply seg_app in S as [S1 S2].
  set (p := (f e).1). set (n := (f e).2).
  (* the part before e, without its last link *)
  assert (E1 : exists s1' , (s1 = [] /\ p = x \/ s1 = s1' ++ [p] /\ seg f x s1' p)).
  { destruct s1 as [|z s1'] using rev_ind.
    - exists []. left. destruct S1 as [_ ?]. done.
    - apply seg_app in S1 as [S1 [_ L]]. exists s1'. right.
      unfold p. rewrite L. done. }
  assert (E2 : exists s2' , (s2 = [] /\ n = x \/ s2 = n :: s2' /\ seg f n s2' x)).
  { destruct s2 as [|z s2'].
    - exists []. left. destruct S2 as [? _]. done.
    - destruct S2 as [[L _] S2]. exists s2'. right. unfold n. rewrite L. done. }
  clear S1 S2. set (g := unlink f p n).
  assert (Lpn : lnk g p n).
  { split; unfold g; [rewrite unlink_2|rewrite unlink_1]; by rewrite decide_True. }
  destruct E1 as [s1' E1]. destruct E2 as [s2' E2].
  assert (F1 : forall s, seg f x s p -> NoDup (x :: s ++ [p]) -> n ∉ s ++ [p] -> seg g x s p).
  { intros s H HN Hn. eapply seg_frame; [| |exact H].
    - intros y Hy. unfold g. rewrite unlink_2. rewrite decide_False; [done|].
      intros ->. rewrite <- (app_nil_l [y]) in HN.
      rewrite app_comm_cons in HN. apply NoDup_app in HN as (_ & HN & _).
      apply (HN y Hy). set_solver.
    - intros y Hy. unfold g. rewrite unlink_1. rewrite decide_False; [done|].
      intros ->. done. }
  assert (F2 : forall s, seg f n s x -> NoDup (n :: s) -> x ∉ n :: s -> p ∉ n :: s -> seg g n s x).
  { intros s H HN Hx Hn. eapply seg_frame; [| |exact H].
    - intros y Hy. unfold g. rewrite unlink_2. rewrite decide_False; [done|].
      intros ->. done.
    - intros y Hy. unfold g. rewrite unlink_1. rewrite decide_False; [done|].
      intros ->. apply elem_of_app in Hy as [Hy|Hy].
      + apply NoDup_cons in HN as [HN _]. done.
      + apply elem_of_list_singleton in Hy. subst. apply Hx. set_solver. }
  rewrite NoDup_cons in ND. destruct ND as [Nx ND].
  apply NoDup_app in ND as (N1 & N12 & N2). apply NoDup_cons in N2 as [Ne2 N2].
  destruct E1 as [[-> Ep]|[-> H1]], E2 as [[-> En]|[-> H2]]; simpl in *.
  - rewrite Ep, En in Lpn. done.
  - rewrite Ep in Lpn. split; [done|]. apply F2; [done|done|set_solver|].
    rewrite Ep. set_solver.
  - rewrite app_nil_r. apply seg_app. rewrite En in Lpn. split; [|done].
    apply F1; [done| |].
    + constructor; [set_solver|]. done.
    + rewrite En. set_solver.
  - rewrite <- app_assoc. simpl. apply seg_app. split.
    + apply F1; [done| |].
      * constructor; [set_solver|done].
      * intros Hn. apply (N12 n Hn). set_solver.
    + simpl. split; [done|]. apply F2; [done|done|set_solver|].
      intros Hp. apply (N12 p); [set_solver|]. set_solver.
Qed.

(** Linking [e] in front of the head [x] of the cycle. *)
Definition link_front (f : nat -> nat * nat) (o x e : nat) : nat -> nat * nat :=
  let f1 := upd f o (set_1 e (f o)) in
  let f2 := upd f1 e (set_0 o (f1 e)) in
  let f3 := upd f2 x (set_0 e (f2 x)) in
  upd f3 e (set_1 x (f3 e)).

Lemma link_front_other f o x e y : y <> o -> y <> x -> y <> e -> link_front f o x e y = f y.
Proof. intros. unfold link_front. by rewrite !upd_ne. Qed.

Lemma link_front_seg f x s e :
  e ∉ x :: s -> NoDup (x :: s) -> seg f x s x -> seg (link_front f (f x).1 x e) e (x :: s) e.
Proof.
  intros He ND S. set (o := (f x).1). set (g := link_front f o x e).
  assert (Ho : o ∈ x :: s) by (apply (seg_last _ _ _ _ S)).
  assert (Xe : x <> e) by set_solver.
  assert (Oe : o <> e) by set_solver.
  assert (Ge : g e = (o, x)).
  { unfold g, link_front. rewrite upd_eq. unfold set_1, set_0.
    rewrite (upd_ne _ x e) by done. rewrite upd_eq. done. }
  assert (G1 : forall y, y <> e -> (g y).1 = if decide (y = x) then e else (f y).1).
  { intros y Hy. unfold g. clearbody o. unfold link_front. rewrite upd_ne by done.
    unfold upd, set_0, set_1. clear -Hy Xe Oe. repeat case_decide; simpl; congruence. }
  assert (G2 : forall y, y <> e -> (g y).2 = if decide (y = o) then e else (f y).2).
  { intros y Hy. unfold g. clearbody o. unfold link_front. rewrite upd_ne by done.
    unfold upd, set_0, set_1. clear -Hy Xe Oe. repeat case_decide; simpl; congruence. }
  simpl. split.
  - split; [by rewrite Ge|]. rewrite G1 by done. by rewrite decide_True.
  - destruct s as [|z s'] using rev_ind.
    + simpl in *. destruct S as [A B]. assert (o = x) by (unfold o; done).
      split; [|by rewrite Ge]. rewrite G2 by done. by rewrite decide_True.
    + clear IHs'. apply seg_app in S as [S L]. simpl in L. apply seg_app.
      assert (o = z) as Eo by (unfold o; apply L). 
      assert (ND' := ND). rewrite app_comm_cons in ND'.
      apply NoDup_app in ND' as (_ & ND' & _).
      split.
      * eapply seg_frame; [| |exact S].
        -- intros y Hy. rewrite G2 by set_solver. rewrite decide_False; [done|].
           intros ->. apply (ND' o Hy). rewrite Eo. set_solver.
        -- intros y Hy. rewrite G1 by set_solver. rewrite decide_False; [done|].
           intros ->. apply NoDup_cons in ND as [ND _]. done.
      * simpl. split; [|by rewrite Ge].
        rewrite G2 by (rewrite <- Eo; done). by rewrite decide_True.
Qed.

(** ** Representation *)
Definition rep (s : lru) (r : list nat) : Prop :=
  length (cells s) = 32 /\ NoDup r /\ Forall (fun x => x < 32) r /\
  (forall i, i < 32 -> i ∉ r -> fn (cells s) i = (0, 0)) /\
  match r with
  | [] => tail s = 0
  | x :: s' => tail s = x + 1 /\ seg (fn (cells s)) x s' x
  end.

Lemma read_fn l i : length l = 32 -> i < 32 -> read l i = Some (fn l i).
Proof.
  intros L H. unfold read, fn. destruct (l !! i) eqn:E; [done|].
  apply lookup_ge_None in E. lia.
Qed.
Lemma write_fn l i g : length l = 32 -> i < 32 -> write l i g = Some (<[i := g (fn l i)]> l).
Proof.
  intros L H. unfold write, fn. destruct (l !! i) eqn:E; [done|].
  apply lookup_ge_None in E. lia.
Qed.
Lemma fn_insert l i v : length l = 32 -> i < 32 -> forall j, fn (<[i := v]> l) j = upd (fn l) i v j.
Proof.
  intros L H j. unfold fn, upd. case_decide.
  - subst. rewrite list_lookup_insert by lia. done.
  - rewrite list_lookup_insert_ne by done. done.
Qed.

Lemma seg_ext f g a s b : (forall y, f y = g y) -> seg f a s b -> seg g a s b.
Proof.
  intros E. apply seg_frame; intros; by rewrite E.
Qed.

Lemma eqp_spec a b : eqp a b = true <-> a = b.
Proof.
  destruct a as [a1 a2], b as [b1 b2]. unfold eqp. simpl.
  rewrite andb_true_iff, !Nat.eqb_eq. split; [intros [-> ->]; done|intros [= -> ->]; done].
Qed.
Lemma eqp_spec_false a b : eqp a b = false <-> a <> b.
Proof.
  destruct (eqp a b) eqn:E.
  - apply eqp_spec in E. subst. split; [discriminate|done].
  - split; [|done]. intros _ X. apply eqp_spec in X. congruence.
Qed.

(** Resolution of the (0,0) ambiguity. *)
Lemma member_zero f x s e :
  seg f x s x -> e ∈ x :: s -> f e = (0, 0) ->
  0 ∈ x :: s /\ f 0 = (e, e) /\ (x = 0 \/ x = e).
Proof.
  intros S He E.
  assert (Hn : (f e).2 ∈ s ++ [x]) by (eapply seg_next_in; eauto).
  rewrite E in Hn. simpl in Hn.
  assert (H0 : 0 ∈ x :: s) by set_solver.
  pose proof (seg_back_next _ _ _ _ e S He) as B1. rewrite E in B1. simpl in B1.
  assert (He' : e ∈ s ++ [x]) by set_solver.
  pose proof (seg_back_prev _ _ _ _ e S He') as B2. rewrite E in B2. simpl in B2.
  assert (F0 : f 0 = (e, e)) by (destruct (f 0); simpl in *; congruence).
  split; [done|]. split; [done|].
  assert (C : forall y, (y = 0 \/ y = e) -> ((f y).2 = 0 \/ (f y).2 = e)).
  { intros y [->|Hy]; [rewrite F0|rewrite Hy, E]; simpl; auto. }
  (* x is reachable from e, hence in {0, e} *)
  apply elem_of_cons in He as [->|He]; [auto|].
  apply elem_of_list_split in He as (s1 & s2 & ->).
  apply seg_app in S as [_ S2].
  destruct s2 as [|z s2] using rev_ind.
  - simpl in S2. destruct S2 as [<- _]. rewrite E. simpl. auto.
  - apply seg_app in S2 as [S2 L].
    assert (Fz : z = 0 \/ z = e).
    { clear IHs2. destruct s2 as [|w s2] using rev_ind.
      - destruct S2 as [<- _]. rewrite E. simpl. auto.
      - clear IHs2. pose proof (seg_closed f (fun y => y = 0 \/ y = e) _ _ _ C (or_intror eq_refl) S2) as FA.
        apply seg_app in S2 as [_ L2]. destruct L2 as [<- _]. apply C.
        rewrite Forall_app in FA. destruct FA as [_ FA]. inversion FA; subst. done. }
    destruct L as [<- _]. apply C. done.
Qed.

Lemma member_test_remove s r e : rep s r -> e < 32 ->
  ((tail s =? 0)
     || (eqp (fn (cells s) e) (0, 0) &&
         (negb (eqp (fn (cells s) 0) (e, e)) ||
          (negb (tail s =? 1) && negb (tail s =? e + 1))))) = true <-> e ∉ r.
Proof.
  intros (L & ND & B & Z & R) He. destruct r as [|x s'].
  - rewrite R. simpl. split; [intros _; apply not_elem_of_nil|done].
  - destruct R as [T S]. rewrite T.
    replace (x + 1 =? 0) with false by (symmetry; apply Nat.eqb_neq; lia). simpl.
    destruct (eqp (fn (cells s) e) (0, 0)) eqn:E; simpl.
    + apply eqp_spec in E. split.
      * intros H Hin. destruct (member_zero _ _ _ _ S Hin E) as (H0 & F0 & X).
        rewrite F0 in H. replace (eqp (e, e) (e, e)) with true in H
          by (symmetry; by apply eqp_spec).
        simpl in H. apply andb_true_iff in H as [H1 H2].
        apply negb_true_iff, Nat.eqb_neq in H1. apply negb_true_iff, Nat.eqb_neq in H2.
        lia.
      * intros Hn. destruct (eqp (fn (cells s) 0) (e, e)) eqn:E0; simpl; [|done].
        apply eqp_spec in E0.
        destruct (decide (0 ∈ x :: s')) as [H0|H0].
        { exfalso. apply Hn. pose proof (seg_next_in _ _ _ _ 0 S H0) as X.
          rewrite E0 in X. simpl in X. set_solver. }
        rewrite (Z 0) in E0 by (done || lia). inversion E0; subst e.
        assert (x <> 0) by set_solver.
        apply andb_true_iff. split; apply negb_true_iff, Nat.eqb_neq; lia.
    + apply eqp_spec_false in E. split; [discriminate|].
      intros Hn. exfalso. apply E. by apply Z.
Qed.

Lemma member_test_promote s x s' e : rep s (x :: s') -> e < 32 -> e <> x ->
  (negb (eqp (fn (cells s) e) (0, 0)) ||
   (eqp (fn (cells s) 0) (e, e) && (tail s =? 1))) = true <-> e ∈ x :: s'.
Proof.
  intros (L & ND & B & Z & T & S) He Hx. rewrite T.
  destruct (eqp (fn (cells s) e) (0, 0)) eqn:E; simpl.
  - apply eqp_spec in E. split.
    + intros H. apply andb_true_iff in H as [H1 H2]. apply eqp_spec in H1.
      apply Nat.eqb_eq in H2. assert (x = 0) by lia. subst x.
      pose proof (seg_next_in _ _ _ _ 0 S ltac:(set_solver)) as X.
      rewrite H1 in X. simpl in X. set_solver.
    + intros Hin. destruct (member_zero _ _ _ _ S Hin E) as (H0 & F0 & X).
      rewrite F0. replace (eqp (e, e) (e, e)) with true by (symmetry; by apply eqp_spec).
      simpl. apply Nat.eqb_eq. destruct X; [lia|congruence].
  - apply eqp_spec_false in E. split; [intros _|done].
    destruct (decide (e ∈ x :: s')) as [|Hn]; [done|]. exfalso. apply E. by apply Z.
Qed.

Lemma filter_ne_notin (e : nat) (r : list nat) : e ∉ r -> filter (fun x => x <> e) r = r.
Proof.
  induction r as [|y r IH]; intros H; [done|].
  rewrite filter_cons_True by set_solver. rewrite IH by set_solver. done.
Qed.
Lemma filter_ne_mid (e : nat) (s1 s2 : list nat) : NoDup (s1 ++ e :: s2) ->
  filter (fun x => x <> e) (s1 ++ e :: s2) = s1 ++ s2.
Proof.
  intros ND. apply NoDup_app in ND as (N1 & N12 & N2). apply NoDup_cons in N2 as [Ne N2].
  rewrite filter_app, filter_cons_False by auto.
  rewrite !filter_ne_notin; [done|done|]. intros H. apply (N12 e H). set_solver.
Qed.

(** Writing the pair of neighbours then clearing [e]. *)
Lemma unlink_list l p n : length l = 32 -> p < 32 -> n < 32 ->
  exists l', (l1 ← write l p (set_1 n); write l1 n (set_0 p)) = Some l' /\
    length l' = 32 /\ forall y, fn l' y = unlink (fn l) p n y.
Proof.
  intros L P Nn. rewrite write_fn by done. simpl.
  rewrite write_fn; [|by rewrite insert_length|done].
  eexists. split; [done|]. split; [by rewrite !insert_length|].
  intros y. rewrite fn_insert; [|by rewrite insert_length|done].
  unfold unlink. rewrite (fn_insert l p) by done.
  unfold upd at 1 3. case_decide; [done|]. apply fn_insert; done.
Qed.

(** Core of removal: unlinking a member [e] of a cycle of length >= 2. *)
Lemma cycle_unlink f x s e :
  NoDup (x :: s) -> seg f x s x -> e ∈ x :: s -> s <> [] ->
  let r' := filter (fun y => y <> e) (x :: s) in
  let g := unlink f (f e).1 (f e).2 in
  exists y s'', r' = y :: s'' /\ seg g y s'' y /\ (e <> x -> y = x) /\ (e = x -> y = (f e).2) /\
    (f e).1 ∈ x :: s /\ (f e).2 ∈ x :: s /\ (f e).1 <> e /\ (f e).2 <> e /\
    (forall z, z ∉ x :: s -> g z = f z).
Proof.
  intros ND S He Hs. cbn zeta.
  assert (P : (f e).1 ∈ x :: s).
  { assert (e ∈ s ++ [x]) as He' by (by apply in_rot). exact (seg_prev_in _ _ _ _ _ S He'). }
  assert (Q : (f e).2 ∈ x :: s).
  { apply in_rot. exact (seg_next_in _ _ _ _ _ S He). }
  assert (O : forall z, z ∉ x :: s -> unlink f (f e).1 (f e).2 z = f z).
  { intros z Hz. unfold unlink. rewrite !upd_ne by (intros EQ; rewrite EQ in *; done). done. }
  apply elem_of_cons in He as He0.
  destruct (decide (e = x)) as [->|Hne].
  - destruct s as [|y s'']; [done|].
    pose proof (seg_rotate _ _ _ _ S) as R.
    assert (ND' : NoDup (y :: s'' ++ x :: [])).
    { eapply NoDup_Permutation_proper; [|exact ND].
      rewrite app_comm_cons. rewrite (Permutation_app_comm (y :: s'') [x]). done. }
    pose proof (unlink_mid f y s'' x [] ND' R) as U. rewrite app_nil_r in U.
    simpl in S. destruct S as [[A B] S].
    exists y, s''.
    assert (y <> x) by (intros ->; apply NoDup_cons in ND as [ND _]; apply ND; left).
    split. { rewrite filter_cons_False by auto. apply filter_ne_notin. apply NoDup_cons in ND as [ND _]. done. }
    split; [done|]. split; [done|]. split; [done|]. split; [done|]. split; [done|].
    split.
    + destruct s'' as [|z s3] using rev_ind; simpl in S.
      * destruct S as [_ ->]. done.
      * clear IHs3. apply seg_app in S as [_ [_ L]]. rewrite L.
        apply NoDup_cons in ND as [ND _]. intros ->. set_solver.
    + split; [congruence|done].
  - destruct He0 as [?|He0]; [done|].
    apply elem_of_list_split in He0 as (s1 & s2 & ->).
    pose proof (unlink_mid f x s1 e s2 ND S) as U.
    exists x, (s1 ++ s2). split.
    { rewrite app_comm_cons in ND |- *. rewrite filter_ne_mid by done. done. }
    split; [done|]. split; [done|]. split; [done|]. split; [done|]. split; [done|].
    apply seg_app in S as [S1 S2].
    rewrite NoDup_cons in ND. destruct ND as [Nx ND].
    apply NoDup_app in ND as (N1 & N12 & N2). apply NoDup_cons in N2 as [Ne N2].
    split; [|split; [|done]].
    + pose proof (seg_last _ _ _ _ S1) as X. intros EE. rewrite EE in X.
      apply elem_of_cons in X as [?|X]; [done|]. apply (N12 _ X). set_solver.
    + pose proof (seg_first _ _ _ _ S2) as X. intros EE. rewrite EE in X. set_solver.
Qed.

Lemma seg_single f x : seg f x [] x <-> f x = (x, x).
Proof. simpl. unfold lnk. destruct (f x). simpl. split; [intros [-> ->]; done|intros [= -> ->]; done]. Qed.

Lemma seg_self f x s e : NoDup (x :: s) -> seg f x s x -> e ∈ x :: s ->
  (f e).1 = e -> s = [] /\ e = x.
Proof.
  intros ND S He E. destruct s as [|y s'].
  - split; [done|]. set_solver.
  - exfalso. destruct (cycle_unlink f x (y :: s') e ND S He) as (? & ? & _ & _ & _ & _ & _ & _ & X & _); done.
Qed.

Lemma rep_lt s r e : rep s r -> e ∈ r -> e < 32.
Proof. intros (_ & _ & B & _) H. rewrite Forall_forall in B. auto. Qed.

Lemma lru_remove_spec s r e : rep s r -> e < 32 ->
  exists s', lru_remove s e = Some s' /\ rep s' (filter (fun x => x <> e) r).
Proof.
  intros R He. pose proof (member_test_remove s r e R He) as M.
  pose proof R as (L & ND & B & Z & RR).
  unfold lru_remove, dll_remove. rewrite !read_fn by (done || lia). simpl.
  destruct (_ || _) eqn:T in |- *.
  - (* not a member *)
    assert (N : e ∉ r) by (apply M; exact T).
    rewrite filter_ne_notin by done. exists s. simpl. destruct s; done.
  - assert (Hin : e ∈ r).
    { destruct (decide (e ∈ r)) as [|N]; [done|]. apply M in N. congruence. }
    clear M T. destruct r as [|x s0]; [set_solver|]. destruct RR as [T S].
    destruct (Nat.eqb_spec (fn (cells s) e).1 e) as [E|E].
    + destruct (seg_self _ _ _ _ ND S Hin E) as [-> ->].
      rewrite write_fn by done. simpl. eexists. split; [done|].
      rewrite filter_cons_False by auto. simpl.
      split; [simpl; by rewrite insert_length|]. split; [constructor|]. split; [constructor|].
      split; [|done]. intros i Hi _. simpl. rewrite fn_insert by done. unfold upd. case_decide; [done|].
      apply Z; [done|set_solver].
    + assert (Hs : s0 <> []).
      { intros ->. apply seg_single in S. assert (e = x) by set_solver. subst.
        rewrite S in E. done. }
      destruct (cycle_unlink _ _ _ _ ND S Hin Hs)
        as (y & s'' & Ef & Sg & Hy1 & Hy2 & P & Q & Pe & Qe & O).
      set (p := (fn (cells s) e).1) in *. set (n := (fn (cells s) e).2) in *.
      assert (Pl : p < 32) by (eapply rep_lt; eauto).
      assert (Nl : n < 32) by (eapply rep_lt; eauto).
      destruct (unlink_list (cells s) p n L Pl Nl) as (l' & EL & LL & FL).
      rewrite write_fn in EL by done. simpl in EL.
      rewrite write_fn by done. simpl. rewrite EL. simpl.
      rewrite write_fn by done. simpl. eexists. split; [done|].
      assert (Er : e ∉ filter (fun x => x <> e) (x :: s0)) by (rewrite elem_of_list_filter; tauto).
      split; [simpl; by rewrite insert_length|].
      split; [by apply NoDup_filter|].
      split. { apply Forall_forall. intros z Hz. apply elem_of_list_filter in Hz as [_ Hz].
               eapply rep_lt; eauto. }
      split.
      * intros i Hi Hin'. simpl. rewrite fn_insert by done. unfold upd. case_decide as D; [done|].
        assert (i ∉ x :: s0). { intros X. apply Hin'. apply elem_of_list_filter. split; [congruence|done]. }
        rewrite FL, O by done. apply Z; done.
      * rewrite Ef. simpl. split.
        -- destruct (Nat.eqb_spec (tail s) (e + 1)) as [X|X]; simpl.
           ++ assert (e = x) by lia. rewrite (Hy2 ltac:(done)). done.
           ++ rewrite (Hy1 ltac:(lia)). done.
        -- assert (e ∉ y :: s'') by (by rewrite <- Ef).
           eapply seg_frame; [| |exact Sg].
           ++ intros z Hz. rewrite fn_insert by done. rewrite upd_ne by set_solver. by rewrite FL.
           ++ intros z Hz. rewrite fn_insert by done. rewrite upd_ne by set_solver. by rewrite FL.
Qed.

(** Linking at the front, on the list representation. *)
Lemma link_front_list l o x e : length l = 32 -> o < 32 -> x < 32 -> e < 32 ->
  exists l', (l3 ← write l o (set_1 e); l4 ← write l3 e (set_0 o);
              l5 ← write l4 x (set_0 e); write l5 e (set_1 x)) = Some l' /\
    length l' = 32 /\ forall y, fn l' y = link_front (fn l) o x e y.
Proof.
  intros L O X E.
  assert (EXT : forall f g i v w y, (forall z, f z = g z) -> v = w -> upd f i v y = upd g i w y).
  { intros f g i v w y H ->. unfold upd. case_decide; [done|]. apply H. }
  rewrite (write_fn l) by done. simpl.
  set (l1 := <[o := _]> l). assert (L1 : length l1 = 32) by (unfold l1; by rewrite insert_length).
  assert (F1 : forall z, fn l1 z = upd (fn l) o (set_1 e (fn l o)) z) by (by apply fn_insert).
  rewrite (write_fn l1) by done. simpl.
  set (l2 := <[e := _]> l1). assert (L2 : length l2 = 32) by (unfold l2; by rewrite insert_length).
  assert (F2 := fn_insert l1 e (set_0 o (fn l1 e)) L1 E). fold l2 in F2.
  rewrite (write_fn l2) by done. simpl.
  set (l3 := <[x := _]> l2). assert (L3 : length l3 = 32) by (unfold l3; by rewrite insert_length).
  assert (F3 := fn_insert l2 x (set_0 e (fn l2 x)) L2 X). fold l3 in F3.
  rewrite (write_fn l3) by done. 
  eexists. split; [done|]. split; [simpl; by rewrite insert_length|].
  intros y. rewrite fn_insert by done. unfold link_front.
  assert (F2' : forall z, fn l2 z = upd (upd (fn l) o (set_1 e (fn l o))) e
                 (set_0 o (upd (fn l) o (set_1 e (fn l o)) e)) z).
  { intros z. rewrite F2. apply EXT; [done|]. by rewrite F1. }
  assert (F3' : forall z, fn l3 z = upd (upd (upd (fn l) o (set_1 e (fn l o))) e
                 (set_0 o (upd (fn l) o (set_1 e (fn l o)) e))) x
                 (set_0 e (upd (upd (fn l) o (set_1 e (fn l o))) e
                 (set_0 o (upd (fn l) o (set_1 e (fn l o)) e)) x)) z).
  { intros z. rewrite F3. apply EXT; [done|]. by rewrite F2'. }
  apply EXT; [done|]. by rewrite F3'.
Qed.

Lemma lru_promote_spec s r e : rep s r -> e < 32 ->
  exists s', lru_promote s e = Some s' /\ rep s' (e :: filter (fun x => x <> e) r).
Proof.
  intros R He. pose proof R as (L & ND & B & Z & RR).
  unfold lru_promote, dll_promote. destruct r as [|x s0].
  - (* empty *)
    rewrite RR. replace (0 =? e + 1) with false by (symmetry; apply Nat.eqb_neq; lia).
    rewrite Nat.eqb_refl. rewrite write_fn by done. simpl.
    eexists. split; [done|]. change (filter (fun x => x <> e) []) with (@nil nat).
    split; [simpl; by rewrite insert_length|]. split; [apply NoDup_singleton|].
    split; [constructor; [done|constructor]|]. split.
    + intros i Hi Hn. simpl. rewrite fn_insert by done. rewrite upd_ne by set_solver.
      apply Z; [done|set_solver].
    + simpl. split; [done|]. unfold lnk. rewrite fn_insert by done. rewrite upd_eq. done.
  - destruct RR as [T S].
    destruct (Nat.eqb_spec (tail s) (e + 1)) as [TE|TE].
    + (* already the most recent *)
      assert (e = x) by lia. subst e. exists s. simpl. split; [by destruct s|].
      rewrite filter_cons_False by auto.
      rewrite filter_ne_notin; [done|]. apply NoDup_cons in ND as [? _]. done.
    + assert (Hex : e <> x) by lia.
      replace (tail s =? 0) with false by (symmetry; apply Nat.eqb_neq; lia).
      rewrite !read_fn by (done || lia).
      pose proof (member_test_promote s x s0 e R He Hex) as M.
      simpl (Some _ ≫= _).
      assert (Xl : x < 32) by (eapply rep_lt; [exact R|set_solver]).
      (* phase 1: the cells without e *)
      assert (PH : exists l2 s1, (if negb (eqp (fn (cells s) e) (0, 0)) || eqp (fn (cells s) 0) (e, e) && (tail s =? 1)
                then l1 ← write (cells s) (fn (cells s) e).1 (set_1 (fn (cells s) e).2);
                     write l1 (fn (cells s) e).2 (set_0 (fn (cells s) e).1)
                else Some (cells s)) = Some l2 /\ length l2 = 32 /\
              filter (fun y => y <> e) (x :: s0) = x :: s1 /\ seg (fn l2) x s1 x /\
              (forall i, i < 32 -> i ∉ x :: s1 -> i <> e -> fn l2 i = (0,0))).
      { destruct (_ || _) eqn:Tst in |- *.
        - assert (Hin : e ∈ x :: s0) by (apply M; exact Tst).
          assert (Hs : s0 <> []) by (intros ->; set_solver).
          destruct (cycle_unlink _ _ _ _ ND S Hin Hs)
            as (y & s'' & Ef & Sg & Hy1 & Hy2 & P & Q & Pe & Qe & O).
          destruct (unlink_list (cells s) (fn (cells s) e).1 (fn (cells s) e).2 L) as (l' & EL & LL & FL).
          { eapply rep_lt; eauto. } { eapply rep_lt; eauto. }
          exists l', s''. split; [done|]. split; [done|]. rewrite (Hy1 Hex) in *.
          split; [done|]. split; [eapply seg_ext; [|exact Sg]; intros; by rewrite FL|].
          intros i Hi Hn Hie. assert (i ∉ x :: s0).
          { intros X. apply Hn. rewrite <- Ef. apply elem_of_list_filter. done. }
          rewrite FL, O by done. by apply Z.
        - assert (Hn : e ∉ x :: s0). { intros X. apply M in X. congruence. }
          exists (cells s), s0. split; [done|]. split; [done|].
          split; [by apply filter_ne_notin|]. split; [done|].
          intros. by apply Z. }
      destruct PH as (l2 & s1 & EL & LL & Ef & S1 & Z1).
      rewrite EL. simpl. clear EL M.
      replace (tail s - 1) with x by lia.
      rewrite read_fn by done. simpl.
      assert (NDf : NoDup (x :: s1)) by (rewrite <- Ef; by apply NoDup_filter).
      assert (Hen : e ∉ x :: s1) by (rewrite <- Ef, elem_of_list_filter; tauto).
      assert (Bf : forall z, z ∈ x :: s1 -> z < 32).
      { intros z Hz. rewrite <- Ef in Hz. apply elem_of_list_filter in Hz as [_ Hz].
        eapply rep_lt; eauto. }
      assert (Ol : (fn l2 x).1 < 32) by (apply Bf; exact (seg_last _ _ _ _ S1)).
      destruct (link_front_list l2 (fn l2 x).1 x e LL Ol Xl He) as (l' & E' & LL' & F').
      rewrite write_fn in E' |- * by done. simpl in E' |- *.
      rewrite write_fn in E' |- * by (by rewrite ?insert_length). simpl in E' |- *.
      rewrite write_fn in E' |- * by (by rewrite ?insert_length). simpl in E' |- *.
      rewrite E'. simpl. eexists. split; [done|].
      rewrite Ef.
      split; [done|]. split; [by constructor|].
      split; [constructor; [done|]; by apply Forall_forall|].
      split.
      * intros i Hi Hn. simpl. rewrite F'. rewrite link_front_other.
        -- apply Z1; set_solver.
        -- intros ->. apply Hn. pose proof (seg_last _ _ _ _ S1). set_solver.
        -- set_solver.
        -- set_solver.
      * simpl tail. split; [done|]. simpl cells.
        eapply seg_ext; [intros y; symmetry; apply F'|]. apply link_front_seg; done.
Qed.

Lemma removelast_filter (r : list nat) x : NoDup (r ++ [x]) ->
  removelast (r ++ [x]) = filter (fun y => y <> x) (r ++ [x]).
Proof.
  intros ND. rewrite removelast_last. rewrite filter_ne_mid by done. by rewrite app_nil_r.
Qed.

Lemma lru_evict_spec s r : rep s r ->
  exists s', lru_evict s = Some (s', last r) /\ rep s' (removelast r).
Proof.
  intros R. pose proof R as (L & ND & B & Z & RR). unfold lru_evict, dll_evict.
  destruct r as [|x s0].
  - rewrite RR. simpl. exists (Lru (cells s) 0). split; [done|].
    destruct s as [c t]. simpl in *. subst. done.
  - destruct RR as [T S]. remember (removelast (x :: s0)) as rl eqn:Erl.
    remember (last (x :: s0)) as la eqn:Ela.
    replace (tail s =? 0) with false by (symmetry; apply Nat.eqb_neq; lia).
    assert (Xl : x < 32) by (eapply rep_lt; [exact R|set_solver]).
    rewrite T. replace (x + 1 - 1) with x by lia. rewrite read_fn by done. simpl.
    destruct (Nat.eqb_spec x (fn (cells s) x).1) as [E|E].
    + destruct (seg_self _ _ _ x ND S ltac:(set_solver) ltac:(congruence)) as [-> _].
      rewrite <- E. simpl in Erl, Ela. subst rl la. simpl. rewrite write_fn by done. simpl. eexists. split; [done|].
      split; [simpl; by rewrite insert_length|]. split; [constructor|]. split; [constructor|].
      split; [|done]. intros i Hi _. simpl. rewrite fn_insert by done. unfold upd.
      case_decide; [done|]. apply Z; [done|set_solver].
    + destruct s0 as [|z s1] using rev_ind.
      { apply seg_single in S. rewrite S in E. done. }
      clear IHs1.
      assert (Hz : (fn (cells s) x).1 = z).
      { apply seg_app in S as [_ [_ ->]]. done. }
      rewrite Hz.
      assert (Hs : s1 ++ [z] <> []) by (by destruct s1).
      destruct (cycle_unlink _ _ _ z ND S ltac:(set_solver) Hs)
            as (y & s'' & Ef & Sg & Hy1 & Hy2 & P & Q & Pe & Qe & O).
      assert (Hx2 : (fn (cells s) z).2 = x).
      { apply seg_app in S as [_ [? _]]. done. }
      rewrite Hx2 in *.
      assert (Zl : z < 32) by (eapply rep_lt; [exact R|set_solver]).
      rewrite read_fn by done. simpl.
      assert (Pl : (fn (cells s) z).1 < 32) by (eapply rep_lt; [exact R|done]).
      destruct (unlink_list (cells s) (fn (cells s) z).1 x L Pl Xl) as (l' & EL & LL & FL).
      rewrite write_fn in EL |- * by done. simpl in EL |- *.
      rewrite EL. simpl. rewrite write_fn by done. simpl. eexists.
      rewrite app_comm_cons in Ela. rewrite last_snoc in Ela. subst la.
      split; [done|].
      assert (xz : x <> z) by congruence.
      rewrite app_comm_cons in ND, Erl. rewrite removelast_filter in Erl by done.
      rewrite <- app_comm_cons in ND, Erl. subst rl.
      assert (Er : z ∉ filter (fun y => y <> z) (x :: s1 ++ [z])) by (rewrite elem_of_list_filter; tauto).
      split; [simpl; by rewrite insert_length|].
      split; [by apply NoDup_filter|].
      split. { apply Forall_forall. intros w Hw. apply elem_of_list_filter in Hw as [_ Hw].
               eapply rep_lt; eauto. }
      split.
      * intros i Hi Hin'. simpl. rewrite fn_insert by done. unfold upd. case_decide as D; [done|].
        assert (i ∉ x :: s1 ++ [z]). { intros X. apply Hin'. apply elem_of_list_filter. split; [congruence|done]. }
        rewrite FL, O by done. apply Z; done.
      * rewrite Ef. simpl. rewrite (Hy1 ltac:(congruence)) in *. split; [lia|].
        assert (z ∉ x :: s'') by (by rewrite <- Ef).
        eapply seg_frame; [| |exact Sg].
        -- intros w Hw. rewrite fn_insert by done. rewrite upd_ne by set_solver. by rewrite FL.
        -- intros w Hw. rewrite fn_insert by done. rewrite upd_ne by set_solver. by rewrite FL.
Qed.

Lemma rep_new : rep lru_new [].
Proof.
  split; [done|]. split; [constructor|]. split; [constructor|]. split; [|done].
  intros i Hi _. unfold fn, lru_new. change (cells _) with (replicate 32 (0, 0)). by rewrite lookup_replicate_2.
Qed.

Lemma lru_step_spec s r o : rep s r -> op_slot_ok o ->
  exists s', lru_step s o = Some (s', (spec_step r o).2) /\ rep s' (spec_step r o).1.
Proof.
  intros R Ho. destruct o as [e|e|]; simpl in *.
  - destruct (lru_promote_spec s r e R Ho) as (s' & E & R'). rewrite E. simpl. eauto.
  - destruct (lru_remove_spec s r e R Ho) as (s' & E & R'). rewrite E. simpl. eauto.
  - apply lru_evict_spec; done.
Qed.

Lemma lru_run_spec os : forall s r, rep s r -> Forall op_slot_ok os ->
  exists s', lru_run s os = Some (s', (spec_run r os).2) /\ rep s' (spec_run r os).1.
Proof.
  induction os as [|o os IH]; intros s r R F; simpl.
  - eauto.
  - inversion F as [|? ? Ho F']; subst.
    destruct (lru_step_spec s r o R Ho) as (s1 & E & R1). rewrite E. simpl.
    destruct (spec_step r o) as [r1 x] eqn:SS. simpl in *.
    destruct (IH s1 r1 R1 F') as (s2 & E2 & R2). rewrite E2. simpl.
    destruct (spec_run r1 os) as [r2 xs]. simpl in *. eauto.
Qed.

Lemma lC21_lru_list_evicts_oldest (os : list lru_op) :
  Forall op_slot_ok os ->
  exists s, lru_run lru_new os = Some (s, (spec_run [] os).2).
Proof.
  intros H. destruct (lru_run_spec os lru_new [] rep_new H) as (s & E & _). exists s. exact E.
Qed.
