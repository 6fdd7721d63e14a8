(** A range stays within its upper bound as long as no removal beyond it takes effect. *)
From Coq Require Import List Arith Bool Lia Sorted.
From Verif Require Import TcModel TcRoute TcSpec TcInv TcTree TcFrame TcJobs TcFz TcFzs TcExt TcSys TcOps TcRun TiMove TiExt TiTs
  TcLin TcLins TiModel TiSpec TiSys TiCur TiLoop TiCalls RgModel RgSpec.
Import ListNotations.

Section facts.
Context {K V : Type} (leb : K -> K -> bool) (HO : tord leb).
Implicit Types (z t i j n : nat) (e : K * V).

Lemma upper_ok (b : ubd K) k : in_upper leb b k <-> beyond leb b k = false.
Proof.
  destruct b as [h|h|]; cbn; unfold ltb; [rewrite negb_false_iff; tauto| |tauto].
  split; [tauto|]. intros H. split; auto. destruct (t_total leb HO k h); congruence.
Qed.

Ltac es0 := split; [reflexivity|]; intros yy hyy; cbn; unfold upd;
  repeat match goal with |- context [?a =? ?b] => destruct (Nat.eqb_spec a b); subst; cbn end; auto; try lia.
(** An entry leaves a leaf by a removal only. *)
Lemma stay_leaf (s : st K V) t p y full s' z e : pc p = PLeaf y -> step_op leb (ALeaf t full) s t p = Some s' ->
  In e (ents (hp s z)) -> In e (ents (hp s' z)) \/ exists u, log s' = ERem u (fst e) :: log s.
Proof.
  intros P H I. cbn [step_op] in H. rewrite P in H. destruct (kind p) as [a|a v|a cond] eqn:Ek.
  - injection H as <-. now left.
  - destruct (ret (hp s y) || _); [injection H as <-; now left|].
    destruct (get leb (ents (hp s y)) (okey (OIns a v))); [injection H as <-; now left|].
    destruct full; injection H as <-; left; [exact I|]. cbn. unfold upd. destruct (Nat.eqb_spec z y) as [->|]; cbn; auto.
  - destruct (negb _); [injection H as <-; now left|].
    destruct (get leb (ents (hp s y)) (okey (ORem a cond))) as [w|]; [|injection H as <-; now left].
    destruct (cond w); [|injection H as <-; now left]. cbn [okey] in H.
    assert (forall s1 : st K V, ents (hp s1 y) = del leb (ents (hp s y)) a -> (forall x, x <> y -> hp s1 x = hp s x) -> log s1 = ERem t a :: log s ->
      In e (ents (hp s1 z)) \/ exists u, log s1 = ERem u (fst e) :: log s) as Q.
    { intros s1 E1 E2 E3. destruct (Nat.eq_dec z y) as [->|Nz]; [|left; now rewrite E2].
      destruct (keqb leb a (fst e)) eqn:Ke.
      - right. exists t. apply (keqb_eq leb HO) in Ke. now rewrite E3, Ke.
      - left. rewrite E1. unfold del. apply filter_In. now rewrite Ke. }
    destruct (del leb (ents (hp s y)) a) eqn:D; injection H as <-; apply Q; cbn; auto; intros; try (now rewrite upd_eq); try (now rewrite upd_ne).
Qed.
Lemma stay (a : act K V) (s s' : st K V) z e : Inv leb s -> step leb a s = Some s' -> In e (ents (hp s z)) ->
  In e (ents (hp s' z)) \/ exists u, log s' = ERem u (fst e) :: log s.
Proof.
  intros I H Hz.
  assert (z < fresh s) as Lz.
  { destruct (Nat.lt_ge_cases z (fresh s)); auto. rewrite (f_blank _ _ (i_f leb s I)) in Hz by auto. destruct Hz. }
  assert (ES s s' -> In e (ents (hp s' z))) as Q by (intros [_ Q]; now rewrite Q).
  unfold step in H. destruct (err s); [discriminate|].
  destruct a; cbn [actor] in H; try (left; apply Q; eapply es_sys; eauto; fail).
  1: { destruct (ops s t); [discriminate|]. injection H as <-. now left. }
  all: destruct (ops s t) as [p|] eqn:Ep; [|discriminate].
  all: destruct (pc p) as [| |y|y M|y M c|y| |] eqn:P; pose proof H as H0; cbn [step_op] in H; try rewrite P in H; try discriminate H.
  - left. destruct (root s); [injection H as <-; exact Hz|]. destruct (kind p); try discriminate; injection H as <-; exact Hz.
  - left. destruct (kind p); try discriminate H. destruct (root s); [discriminate|]. injection H as <-. apply Q. es0.
  - left. injection H as <-. exact Hz.
  - left. destruct (route _ _ _).
    + destruct (slot_child _ _); injection H as <-; exact Hz.
    + destruct (ub (hp s y)) as [| |c]; [| |injection H as <-; exact Hz].
      * destruct (kind p); try (injection H as <-; exact Hz). destruct (_ =? 1); injection H as <-; [|exact Hz]. apply Q. es0.
      * destruct (kind p); injection H as <-; exact Hz.
  - left. destruct (meta_eqb _ _ _); [destruct (_ =? 1)|]; injection H as <-; exact Hz.
  - eapply stay_leaf; eauto.
  - left. destruct (kind p); try discriminate; injection H as <-; exact Hz.
  - left. destruct (existsb _ _); [|discriminate]. injection H as <-. exact Hz.
  - left. injection H as <-. exact Hz.
  - left. destruct (root s); [|discriminate]. destruct (_ && _); [|discriminate]. injection H as <-. exact Hz.
Qed.

(** A run with ranges is a run of TiModel. *)
Lemma rstep_ls (a : ract K V) (s s' : rs K V) : rstep leb a s = Some s' -> exists l, lsrun leb l (li s) = Some (li s').
Proof.
  intros H. destruct a as [a|i b|i]; cbn [rstep] in H.
  - assert (match lsstep leb a (li s) with Some s' => Some (Rs s' (rgs s)) | None => None end = Some s') as H'.
    { destruct a as [a|a|[i|i]]; auto; destruct (rgs s i); [discriminate|auto|discriminate|auto]. }
    destruct (lsstep leb a (li s)) as [s1|] eqn:E; [|discriminate]. injection H' as <-. exists [a]. cbn. now rewrite E.
  - destruct (lsstep leb (TiModel.LI (TNew i)) (li s)) as [s1|] eqn:E; [|discriminate]. injection H as <-. exists [TiModel.LI (TNew i)]. cbn [lsrun]. now rewrite E.
  - unfold rnext in H. destruct (rgs s i) as [r|]; [|discriminate]. destruct (its (li s) i) as [x|] eqn:Ex; [|discriminate].
    destruct (rend r); [discriminate|]. destruct (pend r) as [e|].
    + destruct (ipos x); try discriminate. injection H as <-. now exists [].
    + injection H as <-. exists [TiModel.LI (TStep i)]. cbn. now rewrite Ex.
Qed.
Lemma rrun_ls (l : list (ract K V)) : forall s s', rrun leb l s = Some s' -> exists l', lsrun leb l' (li s) = Some (li s').
Proof.
  induction l as [|a l IH]; cbn; intros s s' H; [injection H as <-; now exists []|].
  destruct (rstep leb a s) as [s1|] eqn:E; [|discriminate]. destruct (rstep_ls _ _ _ E) as [l1 H1]. destruct (IH _ _ H) as [l2 H2].
  exists (l1 ++ l2). now rewrite (lsrun_app leb _ _ _ _ H1).
Qed.

(** The largest key of a leaf. *)
Lemma max_ge (es : list (K * V)) e : In e es -> exists m, max_key leb es = Some m /\ leb (fst e) m = true.
Proof.
  intros I. apply (in_sortk leb) in I. unfold max_key.
  pose proof (sortk_srt leb HO es) as S. revert I S. induction (sortk leb es) as [|a l _] using rev_ind; [intros []|].
  intros I S. rewrite rev_unit. exists (fst a). split; auto. apply in_app_or in I as [I|[<-|[]]]; [|now apply (leb_refl leb HO)].
  induction l as [|b l IH]; [destruct I|]. inversion S as [|? ? S1 F]; subst. destruct I as [<-|I]; [|now apply IH].
  rewrite Forall_forall in F. apply F. apply in_or_app. right. now left.
Qed.
Lemma beyond_up b k m : beyond leb b k = true -> leb k m = true -> beyond leb b m = true.
Proof.
  destruct b as [h|h|]; cbn; [|intros; eapply (t_trans leb HO); eauto|discriminate].
  unfold ltb. intros A B. apply negb_true_iff in A. apply negb_true_iff. destruct (leb m h) eqn:E; auto.
  rewrite (t_trans leb HO _ _ _ B E) in A. discriminate.
Qed.
Lemma flag_true b (es : list (K * V)) e : In e es -> beyond leb b (fst e) = true -> bound_flag leb b es = true.
Proof. intros I B. destruct (max_ge es e I) as (m & E & L). unfold bound_flag. rewrite E. eapply beyond_up; eauto. Qed.

(** What is known of a range. *)
Section inv.
Context (b : ubd K) (N i : nat).
Notation far e := (beyond leb b (fst e) = true).
Definition carried (h : nat -> obj K V) (x : iter K V) : Prop :=
  match ipos x with
  | IAt z rest _ => forall e, In e rest -> far e -> In e (ents (h z))
  | ISnap _ _ z es => forall e, In e es -> far e -> In e (ents (h z))
  | _ => True
  end.
Record JR (h : nat -> obj K V) (x : iter K V) (r : rg K V) : Prop := {
  j_y : forall e, In e (ry r) -> beyond leb b (fst e) = false;
  j_c : carried h x;
  j_p : forall e, pend r = Some e -> exists z rest last, ipos x = IAt z rest last /\ (far e -> In e (ents (h z)));
  j_f : forall z rest k, pend r = None -> rend r = false -> ipos x = IAt z rest (Some k) ->
    chk r = true \/ forall e, In e rest -> beyond leb b (fst e) = false }.
Definition J (s : rs K V) : Prop := forall r, rgs s i = Some r -> rb r = b ->
  exists x, its (li s) i = Some x /\ JR (hp (tc (li s))) x r.
(** Removals beyond the bound are older than [N]. *)
Definition clean (lg : list (ev K V)) : Prop := forall j t k, ev_i lg j = Some (ERem t k) -> beyond leb b k = true -> j < N.

Lemma clean_back (d lg : list (ev K V)) : clean (d ++ lg) -> clean lg.
Proof.
  intros C j t k E. apply (C j t k). unfold ev_i in *. rewrite rev_app_distr, nth_error_app1; auto.
  apply nth_error_Some. congruence.
Qed.
Lemma clean_new t k lg : clean (ERem t k :: lg) -> N <= length lg -> beyond leb b k = true -> False.
Proof.
  intros C L B. specialize (C (length lg) t k). enough (length lg < N) by lia. apply C; auto.
  unfold ev_i. cbn [rev]. rewrite nth_error_app2; rewrite rev_length; auto. now rewrite Nat.sub_diag.
Qed.

Lemma jr_heap h h' x r : (forall z e, In e (ents (h z)) -> far e -> In e (ents (h' z))) -> JR h x r -> JR h' x r.
Proof.
  intros Q [A B C D]. constructor; auto.
  - unfold carried in *. destruct (ipos x); auto.
  - intros e E. destruct (C e E) as (z & rest & last & P & F). exists z, rest, last. auto.
Qed.

Lemma j_t (a : act K V) s s' g : Inv leb (tc s) -> tstep leb a s = Some s' -> clean (log (tc s')) -> N <= length (log (tc s)) ->
  J (Rs s g) -> J (Rs s' g).
Proof.
  intros I H C L Hj r Hr Hb. apply t_parts in H as (St & _ & _ & Ei). destruct (Hj r Hr Hb) as (x & Hx & Q). cbn in *.
  exists x. rewrite Ei. split; auto. eapply jr_heap; [|exact Q]. intros z e Hz Fe.
  destruct (stay _ _ _ z e I St Hz) as [|[u E]]; auto. rewrite E in C. destruct (clean_new _ _ _ C L Fe).
Qed.

Lemma decide_ry (r : rg K V) c e : rb r = b -> (forall e, In e (ry r) -> beyond leb b (fst e) = false) ->
  (far e -> c = true) -> forall e', In e' (ry (decide leb r c e)) -> beyond leb b (fst e') = false.
Proof.
  intros Hb A F e' I. unfold decide in I. rewrite Hb in I. destruct (beyond leb b (fst e)) eqn:B.
  - rewrite (F eq_refl) in I. cbn in I. auto.
  - rewrite andb_false_r in I. cbn in I. apply in_app_or in I as [I|[<-|[]]]; auto.
Qed.

Lemma rb_decide (r : rg K V) c e : rb (decide leb r c e) = rb r.
Proof. unfold decide. destruct (_ && _); reflexivity. Qed.
Lemma chk_decide (r : rg K V) c e : chk (decide leb r c e) = c.
Proof. unfold decide. destruct (_ && _); reflexivity. Qed.
Lemma pend_decide (r : rg K V) c e : pend (decide leb r c e) = None.
Proof. unfold decide. destruct (_ && _); reflexivity. Qed.

Lemma j_next s s' : J s -> rnext leb s i = Some s' -> J s'.
Proof.
  intros Hj H r' Hr' Hb'. unfold rnext in H. destruct (rgs s i) as [r|] eqn:Er; [|discriminate].
  destruct (its (li s) i) as [x|] eqn:Ex; [|discriminate]. destruct (rend r) eqn:Re; [discriminate|].
  assert (rb r = b -> JR (hp (tc (li s))) x r) as Q0.
  { intros Hb. destruct (Hj r Er Hb) as (x0 & Hx0 & Q). congruence. }
  destruct (pend r) as [e|] eqn:Pe.
  - destruct (ipos x) as [| | | | |z rest last| | | | |] eqn:Px; try discriminate. injection H as <-.
    unfold set_rg in Hr'. cbn in Hr'. rewrite upd_eq in Hr'. injection Hr' as <-. rewrite rb_decide in Hb'. specialize (Q0 Hb'). destruct Q0 as [A B C D].
    exists x. cbn. split; auto. destruct (C e Pe) as (z1 & rest1 & last1 & P1 & F). rewrite Px in P1. injection P1 as <- <- <-.
    rewrite Hb'. change (nd (li s) z) with (hp (tc (li s)) z). constructor.
    + apply decide_ry; auto. intros Fe. eapply flag_true; eauto.
    + exact B.
    + intros e0. now rewrite pend_decide.
    + intros z0 rest0 k _ _ P0. rewrite Px in P0. injection P0 as <- <- ->. rewrite chk_decide.
      destruct (bound_flag leb b (ents (hp (tc (li s)) z))) eqn:Bf; auto. right. intros e0 I0.
      destruct (beyond leb b (fst e0)) eqn:B0; auto. unfold carried in B. rewrite Px in B. specialize (B _ I0 B0).
      rewrite (flag_true b _ e0 B B0) in Bf. discriminate.
  - injection H as <-. unfold set_rg in Hr'. cbn in Hr'. rewrite upd_eq in Hr'. injection Hr' as <-.
    assert (rb r = b) as Hb.
    { destruct (emits leb (li s) x); [destruct (same_leaf x)|]; try rewrite rb_decide in Hb'; exact Hb'. }
    specialize (Q0 Hb). destruct Q0 as [A B C D]. clear Hb'.
    eexists. cbn [li its with_it tc set_rg]. rewrite upd_eq. split; [reflexivity|].
    unfold carried in B. unfold emits, same_leaf.
    assert (forall x', carried (hp (tc (li s))) x' -> (forall z rest k, ipos x' <> IAt z rest (Some k)) ->
      JR (hp (tc (li s))) x' (Rg (rb r) (chk r) None (ry r) (over x'))) as Triv.
    { intros x' Hc Hn. constructor; cbn; auto; [discriminate|]. intros z rest k _ _ P. now apply Hn in P. }
    destruct (ipos x) as [|top n|top n M|top n M c|c|c [|e rest] last|c last z|c last z|c last z|c last z es|e0] eqn:Px.
    + apply Triv; unfold istep; rewrite Px; destruct (root (tc (li s))); cbn; auto; discriminate.
    + apply Triv; unfold istep; rewrite Px; cbn; auto; discriminate.
    + apply Triv; unfold istep; rewrite Px; unfold carried; (destruct (fst M) as [|[? ?] ?]; [destruct (ub (nd (li s) n)); try destruct top|destruct (slot_child _ _)]); cbn; auto; discriminate.
    + apply Triv; unfold istep; rewrite Px; unfold carried; repeat match goal with |- context [if ?e then _ else _] => destruct e end; cbn; auto; discriminate.
    + apply Triv; unfold istep; rewrite Px; unfold carried; cbn; try discriminate. intros e He _. exact (proj1 (in_sortk leb _ _) He).
    + apply Triv; unfold istep; rewrite Px; unfold carried; cbn; auto; discriminate.
    + assert (carried (hp (tc (li s))) (istep leb (li s) x)) as Hc.
      { unfold istep, carried. rewrite Px. cbn. intros e1 I1. apply B. now right. }
      destruct last as [k|].
      * constructor.
        -- apply decide_ry; auto. intros Fe. destruct (D c (e :: rest) k Pe Re eq_refl) as [|D1]; auto. rewrite (D1 e) in Fe by now left. discriminate.
        -- exact Hc.
        -- intros e1. now rewrite pend_decide.
        -- intros z1 rest1 k1 _ _ P1. unfold istep in P1. rewrite Px in P1. cbn in P1. injection P1 as <- <- <-. rewrite chk_decide.
           destruct (D c (e :: rest) k Pe Re eq_refl) as [|D1]; auto. right. intros e1 I1. apply D1. now right.
      * constructor; cbn; auto; try discriminate. intros e1 [= <-]. unfold istep. rewrite Px. cbn. eexists _, _, _. split; [reflexivity|].
        intros Fe. apply B; auto. now left.
    + apply Triv; unfold istep; rewrite Px; unfold carried; destruct (link (li s) z); cbn; auto; discriminate.
    + apply Triv; unfold istep; rewrite Px; unfold carried; destruct (dl (li s) z); cbn; auto; discriminate.
    + apply Triv; unfold istep; rewrite Px; unfold carried; cbn; try discriminate. intros e He _. exact (proj1 (in_sortk leb _ _) He).
    + assert (forall e, In e (fresh_only leb (li s) c last es) -> In e es) as Sub.
      { intros e. unfold fresh_only. destruct last; auto. destruct (clear _ _); auto. intros I. now apply filter_In in I. }
      destruct (fresh_only leb (li s) c last es) as [|e rest] eqn:Fo.
      * apply Triv; unfold istep; rewrite Px, Fo; cbn; auto; discriminate.
      * constructor; cbn; auto; try discriminate.
        -- unfold carried, istep. rewrite Px, Fo. cbn. intros e1 I1. apply B. apply Sub. now right.
        -- intros e1 [= <-]. unfold istep. rewrite Px, Fo. cbn. eexists _, _, _. split; [reflexivity|]. intros Fe. apply B; auto. apply Sub. now left.
    + apply Triv; unfold istep; rewrite Px; unfold carried; try rewrite Px; cbn; auto; discriminate.
Qed.

Lemma j_step (a : ract K V) s s' : Inv leb (tc (li s)) -> rstep leb a s = Some s' -> clean (log (tc (li s'))) -> N <= length (log (tc (li s))) -> J s -> J s'.
Proof.
  intros I H C L Hj. destruct a as [a|j b'|j]; cbn [rstep] in H.
  - destruct a as [a|a|[j|j]].
    + cbn [lsstep] in H. destruct (tstep leb a (li s)) as [s1|] eqn:E; [|discriminate]. injection H as <-. destruct s as [s g]. cbn in *.
      eapply j_t; eauto.
    + cbn [lsstep] in H. destruct (lstep a (li s)) as [s1|] eqn:E; [|discriminate]. injection H as <-.
      intros r Hr Hb. destruct (Hj r Hr Hb) as (x & Hx & Q). cbn. exists x. rewrite (l_tc _ _ _ E). apply l_its in E as [-> _]. auto.
    + destruct (rgs s j) eqn:G; [discriminate|]. cbn [lsstep] in H. destruct (its (li s) j) eqn:Ej; [discriminate|]. injection H as <-.
      intros r Hr Hb. cbn in Hr. destruct (Hj r Hr Hb) as (x & Hx & Q). exists x. cbn. split; auto. rewrite upd_ne; auto. congruence.
    + destruct (rgs s j) eqn:G; [discriminate|]. cbn [lsstep] in H. destruct (its (li s) j) eqn:Ej; [|discriminate]. injection H as <-.
      intros r Hr Hb. cbn in Hr. destruct (Hj r Hr Hb) as (x & Hx & Q). exists x. cbn. split; auto. rewrite upd_ne; auto. congruence.
  - cbn [lsstep] in H. destruct (its (li s) j) eqn:Ej; [discriminate|]. injection H as <-. intros r Hr Hb. cbn in Hr.
    destruct (Nat.eq_dec i j) as [->|Nj].
    + rewrite upd_eq in Hr. injection Hr as <-. cbn. rewrite upd_eq. eexists. split; [reflexivity|].
      constructor; cbn; auto; [intros ? []|discriminate|discriminate].
    + rewrite upd_ne in Hr by auto. destruct (Hj r Hr Hb) as (x & Hx & Q). exists x. cbn. rewrite upd_ne by auto. auto.
  - destruct (Nat.eq_dec i j) as [<-|Nj]; [eapply j_next; eauto|].
    unfold rnext in H. destruct (rgs s j) as [r1|] eqn:Gj; [|discriminate]. destruct (its (li s) j) as [x1|] eqn:Ej; [|discriminate].
    destruct (rend r1); [discriminate|]. intros r Hr Hb.
    destruct (pend r1).
    + destruct (ipos x1); try discriminate. injection H as <-. cbn in Hr. rewrite upd_ne in Hr by auto. destruct (Hj r Hr Hb) as (x2 & Hx & Q). now exists x2.
    + injection H as <-. cbn in Hr. rewrite upd_ne in Hr by auto. destruct (Hj r Hr Hb) as (x & Hx & Q). exists x. cbn. rewrite upd_ne by auto. auto.
Qed.

Lemma j_run l : forall s s', SI leb (li s) -> rrun leb l s = Some s' -> clean (log (tc (li s'))) -> N <= length (log (tc (li s))) -> J s -> J s'.
Proof.
  induction l as [|a l IH]; cbn; intros s s' I H C L Hj; [now injection H as <-|].
  destruct (rstep leb a s) as [s1|] eqn:E; [|discriminate].
  destruct (rrun_ls _ _ _ H) as [l2 H2]. destruct (run_tc leb _ _ _ H2) as [a2 Ha2]. destruct (log_run leb _ _ _ Ha2) as [d2 D2].
  destruct (rstep_ls _ _ _ E) as [l1 H1]. destruct (run_tc leb _ _ _ H1) as [a1 Ha1]. destruct (log_run leb _ _ _ Ha1) as [d1 D1].
  apply (IH s1 s'); auto.
  - eapply si_run; eauto.
  - rewrite D1, app_length. lia.
  - eapply j_step; eauto; [apply I|]. rewrite D2 in C. now apply clean_back in C.
Qed.
End inv.

Lemma range_bounded la lb (sa s : rs K V) i b y : rrun leb la rinit = Some sa -> rrun leb lb sa = Some s ->
  all_returned (li sa) (removes_beyond leb b) -> none_begins (li sa) (li s) (removes_beyond leb b) ->
  rgs sa i = None -> ranged s i b y -> forall k v, In (k, v) y -> in_upper leb b k.
Proof.
  intros Ra Rb Al No Ni (r & Hr & Hb & <-) k v I. apply upper_ok.
  destruct (rrun_ls _ _ _ Ra) as [la' Ra']. destruct (rrun_ls _ _ _ Rb) as [lb' Rb'].
  assert (lsrun leb ([] : list (lsact K V)) (li s) = Some (li s)) as Rc' by reflexivity.
  assert (clean b (length (log (tc (li sa)))) (log (tc (li s)))) as C.
  { intros j t k' E B. eapply (old leb HO la' lb' [] (li sa) (li s) (li s) Ra' Rb' Rc' (removes_beyond leb b) Al No); [exact E|].
    intros q before (cond & w & -> & _). exists k', cond. rewrite upper_ok, B. split; [discriminate|auto]. }
  assert (J b i sa) as J0 by (intros r0 Hr0; congruence).
  assert (SI leb (li sa)) as Isa by (eapply (si_run leb HO); [apply si_init|exact Ra']).
  destruct (j_run b _ i lb sa s Isa Rb C (le_n _) J0 r Hr Hb) as (x & _ & Q). apply (j_y _ _ _ _ Q (k, v)). exact I.
Qed.
End facts.
