(** What a range yields, compared with what its iterator comes to. *)
From Coq Require Import List Arith Bool Lia.
From Verif Require Import TcModel TcRoute TcSpec TcSys TcLin TiModel TiSpec TiCur TiLoop TiAsc TiCalls TiEx RgModel RgSpec RgFacts.
Import ListNotations.

Section more.
Context {K V : Type} (leb : K -> K -> bool) (HO : tord leb).
Implicit Types (z i j n : nat) (e : K * V).

Definition PR (x : iter K V) (r : rg K V) : Prop := exists tl, out x = ry r ++ tl
  /\ (pend r = None -> rend r = false -> tl = [])
  /\ (forall e, pend r = Some e -> rend r = false /\ tl = [e] /\ exists z rest, ipos x = IAt z rest (Some (fst e)))
  /\ (rend r = true -> (tl = [] /\ exists t, ipos x = IEnd t)
       \/ exists e z rest, tl = [e] /\ beyond leb (rb r) (fst e) = true /\ ipos x = IAt z rest (Some (fst e))).
Definition PJ (s : rs K V) : Prop := forall i r, rgs s i = Some r -> exists x, its (li s) i = Some x /\ PR x r.

Lemma pr_decide x (r : rg K V) c e z rest : out x = ry r ++ [e] -> ipos x = IAt z rest (Some (fst e)) -> PR x (decide leb r c e).
Proof.
  intros Ho Hp. unfold decide. destruct (c && beyond leb (rb r) (fst e)) eqn:D.
  - exists [e]. cbn. split; auto. split; [discriminate|]. split; [discriminate|]. intros _. right. exists e, z, rest.
    apply andb_true_iff in D as [_ D]. auto.
  - exists []. cbn. rewrite app_nil_r. split; auto. split; auto. split; discriminate.
Qed.

Lemma pr_next s s' i : PJ s -> rnext leb s i = Some s' -> PJ s'.
Proof.
  intros Hj H. unfold rnext in H. destruct (rgs s i) as [r|] eqn:Er; [|discriminate].
  destruct (its (li s) i) as [x|] eqn:Ex; [|discriminate]. destruct (rend r) eqn:Re; [discriminate|].
  destruct (Hj i r Er) as (x0 & Hx0 & Q). assert (x0 = x) as -> by congruence. destruct Q as (tl & Ho & Q1 & Q2 & _).
  assert (forall x' r', PR x' r' -> PJ (set_rg (with_it (li s) i x') (rgs s) i r')) as Up.
  { intros x' r' Q j r1 Hr. cbn in *. destruct (Nat.eq_dec j i) as [->|Nj].
    - rewrite upd_eq in Hr. injection Hr as <-. rewrite upd_eq. eauto.
    - rewrite upd_ne in Hr by auto. rewrite upd_ne by auto. auto. }
  destruct (pend r) as [e|] eqn:Pe.
  - destruct (Q2 e eq_refl) as (_ & -> & z & rest & Px). rewrite Px in H. injection H as <-.
    intros j r1 Hr. cbn in *. destruct (Nat.eq_dec j i) as [->|Nj]; [|rewrite upd_ne in Hr by auto; auto].
    rewrite upd_eq in Hr. injection Hr as <-. exists x. split; auto. eapply pr_decide; eauto.
  - injection H as <-. apply Up. rewrite (Q1 eq_refl Re), app_nil_r in Ho.
    assert (forall x', out x' = ry r -> PR x' (Rg (rb r) (chk r) None (ry r) (over x'))) as Triv.
    { intros x' Ho'. exists []. cbn. rewrite app_nil_r. split; auto. split; auto. split; [discriminate|].
      unfold over. destruct (ipos x') eqn:P; try discriminate. intros _. left. eauto. }
    assert (forall x' e z rest, out x' = ry r ++ [e] -> ipos x' = IAt z rest (Some (fst e)) ->
      PR x' (if same_leaf x then decide leb r (chk r) e else Rg (rb r) (chk r) (Some e) (ry r) false)) as Em.
    { intros x' e z rest O P. destruct (same_leaf x); [eapply pr_decide; eauto|]. exists [e]. cbn. split; auto. split; [discriminate|].
      split; [|discriminate]. intros e0 [= <-]. eauto. }
    unfold emits.
    destruct (ipos x) as [|top n|top n M|top n M c|c|c [|e rest] last|c last z|c last z|c last z|c last z es|e0] eqn:Px.
    + apply Triv. unfold istep. rewrite Px. destruct (root (tc (li s))); exact Ho.
    + apply Triv. unfold istep. rewrite Px. exact Ho.
    + apply Triv. unfold istep. rewrite Px. destruct (fst M) as [|[? ?] ?].
      * destruct (ub (nd (li s) n)); try exact Ho; destruct top; exact Ho.
      * destruct (slot_child _ _); exact Ho.
    + apply Triv. unfold istep. rewrite Px. destruct (meta_eqb _ _ _); [|exact Ho]. destruct (_ =? 1); exact Ho.
    + apply Triv. unfold istep. rewrite Px. exact Ho.
    + apply Triv. unfold istep. rewrite Px. exact Ho.
    + eapply Em; unfold istep; rewrite Px; cbn; [now rewrite Ho|reflexivity].
    + apply Triv. unfold istep. rewrite Px. destruct (link (li s) z); exact Ho.
    + apply Triv. unfold istep. rewrite Px. destruct (dl (li s) z); exact Ho.
    + apply Triv. unfold istep. rewrite Px. exact Ho.
    + destruct (fresh_only leb (li s) c last es) as [|e rest] eqn:Fo.
      * apply Triv. unfold istep. rewrite Px, Fo. exact Ho.
      * eapply Em; unfold istep; rewrite Px, Fo; cbn; [now rewrite Ho|reflexivity].
    + apply Triv. unfold istep. rewrite Px. exact Ho.
Qed.

Lemma pj_step (a : ract K V) s s' : rstep leb a s = Some s' -> PJ s -> PJ s'.
Proof.
  intros H Hj. destruct a as [a|j b'|j]; cbn [rstep] in H.
  - destruct a as [a|a|[j|j]].
    + cbn [lsstep] in H. destruct (tstep leb a (li s)) as [s1|] eqn:E; [|discriminate]. injection H as <-.
      apply t_parts in E as (_ & _ & _ & Ei). intros i r Hr. cbn in *. rewrite Ei. auto.
    + cbn [lsstep] in H. destruct (lstep a (li s)) as [s1|] eqn:E; [|discriminate]. injection H as <-.
      intros i r Hr. cbn in *. apply l_its in E as [-> _]. auto.
    + destruct (rgs s j) eqn:G; [discriminate|]. cbn [lsstep] in H. destruct (its (li s) j) eqn:Ej; [discriminate|]. injection H as <-.
      intros i r Hr. cbn in *. rewrite upd_ne by congruence. auto.
    + destruct (rgs s j) eqn:G; [discriminate|]. cbn [lsstep] in H. destruct (its (li s) j) as [xj|] eqn:Ej; [|discriminate]. injection H as <-.
      intros i r Hr. cbn in *. rewrite upd_ne by congruence. auto.
  - cbn [lsstep] in H. destruct (its (li s) j) eqn:Ej; [discriminate|]. injection H as <-. intros i r Hr. cbn in *.
    destruct (Nat.eq_dec i j) as [->|Nj].
    + rewrite upd_eq in Hr. injection Hr as <-. rewrite upd_eq. eexists. split; [reflexivity|].
      exists []. cbn. split; auto. split; auto. split; discriminate.
    + rewrite upd_ne in Hr by auto. rewrite upd_ne by auto. auto.
  - eapply pr_next; eauto.
Qed.
Lemma pj_run l : forall s s', rrun leb l s = Some s' -> PJ s -> PJ s'.
Proof.
  induction l as [|a l IH]; cbn; intros s s' H Hj; [now injection H as <-|].
  destruct (rstep leb a s) as [s1|] eqn:E; [|discriminate]. eapply IH; eauto. eapply pj_step; eauto.
Qed.
Lemma pj_init : PJ rinit.
Proof. intros i r H. discriminate. Qed.

(** The steps of the list are those of the run. *)
Lemma rstep_ls2 (a : ract K V) (s s' : rs K V) : rstep leb a s = Some s' ->
  exists l, lsrun leb l (li s) = Some (li s') /\ forall c, In c l -> (forall d, c <> TiModel.LI d) -> a = RL c.
Proof.
  intros H. destruct a as [a|i b|i]; cbn [rstep] in H.
  - assert (match lsstep leb a (li s) with Some s' => Some (Rs s' (rgs s)) | None => None end = Some s') as H'.
    { destruct a as [a|a|[i|i]]; auto; destruct (rgs s i); [discriminate|auto|discriminate|auto]. }
    destruct (lsstep leb a (li s)) as [s1|] eqn:E; [|discriminate]. injection H' as <-. exists [a]. cbn. rewrite E. split; auto.
    intros c [->|[]] _. reflexivity.
  - destruct (lsstep leb (TiModel.LI (TNew i)) (li s)) as [s1|] eqn:E; [|discriminate]. injection H as <-. exists [TiModel.LI (TNew i)].
    cbn [lsrun]. rewrite E. split; auto. intros c [<-|[]] Hc. destruct (Hc _ eq_refl).
  - unfold rnext in H. destruct (rgs s i) as [r|]; [|discriminate]. destruct (its (li s) i) as [x|] eqn:Ex; [|discriminate].
    destruct (rend r); [discriminate|]. destruct (pend r) as [e|].
    + destruct (ipos x); try discriminate. injection H as <-. exists []. split; auto. intros c [].
    + injection H as <-. exists [TiModel.LI (TStep i)]. cbn. rewrite Ex. split; auto. intros c [<-|[]] Hc. destruct (Hc _ eq_refl).
Qed.
Lemma rrun_ls2 (l : list (ract K V)) : forall s s', rrun leb l s = Some s' ->
  exists l', lsrun leb l' (li s) = Some (li s') /\ forall c, In c l' -> (forall d, c <> TiModel.LI d) -> In (RL c) l.
Proof.
  induction l as [|a l IH]; cbn; intros s s' H; [injection H as <-; exists []; split; auto|].
  destruct (rstep leb a s) as [s1|] eqn:E; [|discriminate]. destruct (rstep_ls2 _ _ _ E) as (l1 & H1 & G1). destruct (IH _ _ H) as (l2 & H2 & G2).
  exists (l1 ++ l2). rewrite (lsrun_app leb _ _ _ _ H1). split; auto. intros c Hc Nc. apply in_app_or in Hc as [Hc|Hc]; [left|right]; auto.
Qed.

Lemma rcall_in (l : list (ract K V)) (s s' : rs K V) t q : rrun leb l s = Some s' -> call (li s') t q ->
  call (li s) t q \/ In (RL (LT (AInv t q))) l.
Proof.
  intros R C. destruct (rrun_ls2 _ _ _ R) as (l' & R' & G). destruct (call_in leb l' _ _ t q R' C) as [|I]; [now left|].
  right. apply G; [exact I|discriminate].
Qed.

Lemma range_complete l (s : rs K V) i b t0 y k v : rrun leb l rinit = Some s -> ranged s i b y -> created s i t0 -> range_over s i ->
  throughout leb (log (tc (li s))) t0 (length (log (tc (li s)))) k v -> in_upper leb b k -> In (k, v) y.
Proof.
  intros R (r & Hr & <- & <-) (x & Hx & <-) (r' & Hr' & Re) T B. apply (upper_ok leb HO) in B. assert (r' = r) as -> by congruence.
  destruct (pj_run _ _ _ R pj_init i r Hr) as (x' & Hx' & tl & Ho & _ & _ & Q). assert (x' = x) as -> by congruence.
  destruct (rrun_ls leb _ _ _ R) as [l' R']. destruct (ri_run leb HO l' _ _ (ri_init leb) R') as [_ A]. destruct (A i x Hx) as [_ _ P].
  destruct (Q Re) as [[-> [t Pt]]|(e & z & rest & -> & Be & Pe)].
  - rewrite Pt in P. destruct P as (Le & P & _). rewrite app_nil_r in Ho. rewrite <- Ho. apply P. intros j Hj. change (log (tc (strip (li s)))) with (log (tc (li s))) in *. apply T. lia.
  - rewrite Pe in P. destruct P as [_ P].
    assert (In (k, v) (out x)) as I.
    { apply (P (fst e) eq_refl (k, v)); [exact T|]. cbn. destruct (t_total leb HO k (fst e)) as [|L]; auto.
      rewrite (beyond_up leb HO (rb r) (fst e) k Be L) in B. discriminate. }
    rewrite Ho in I. apply in_app_or in I as [I|[->|[]]]; auto. cbn in Be. congruence.
Qed.
Lemma range_sound l (s : rs K V) i b t0 y k v : rrun leb l rinit = Some s -> ranged s i b y -> created s i t0 ->
  In (k, v) y -> sometime leb (log (tc (li s))) t0 (length (log (tc (li s)))) k v.
Proof.
  intros R (r & Hr & <- & <-) (x & Hx & <-) I.
  destruct (pj_run _ _ _ R pj_init i r Hr) as (x' & Hx' & tl & Ho & _). assert (x' = x) as -> by congruence.
  destruct (rrun_ls leb _ _ _ R) as [l' R']. destruct (ri_run leb HO l' _ _ (ri_init leb) R') as [_ A]. destruct (A i x Hx) as [_ O _].
  apply (O (k, v)). rewrite Ho. apply in_or_app. now left.
Qed.
Lemma asc_app (a d : list K) : ascending leb (a ++ d) -> ascending leb a.
Proof.
  induction a as [|u a IH]; cbn; auto. intros [A B]. split; auto. intros w Hw. apply A. apply in_or_app. now left.
Qed.
Lemma range_ordered l (s : rs K V) i b y : rrun leb l rinit = Some s -> no_rollback_r l -> ranged s i b y -> ascending leb (map fst y).
Proof.
  intros R N (r & Hr & <- & <-).
  destruct (pj_run _ _ _ R pj_init i r Hr) as (x & Hx & tl & Ho & _).
  destruct (rrun_ls2 _ _ _ R) as (l' & R' & G). apply (asc_app _ (map fst tl)). rewrite <- map_app, <- Ho.
  apply (run_ascending leb HO l' (li s) i (it0 x) (out x) R'); [|exists x; auto]. intros n Hn. apply (N n). apply G; [exact Hn|discriminate].
Qed.
End more.
