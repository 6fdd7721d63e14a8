(** Every entry of every leaf, reachable or not, was inserted; so was whatever an iterator or a range holds. *)
From Coq Require Import List Arith Bool Lia.
From Verif Require Import TcModel TcRoute TcSpec TcOps TcLin TiModel TiSpec TiCur TiLoop TiCalls RgModel LbModel TmModel.
Import ListNotations.

Section facts.
Context {K V : Type} (leb : K -> K -> bool) (HO : tord leb).
Notation heap := (nat -> obj K V).
Notation hist := (list (ev K V)).
Implicit Types (h : heap) (lg : hist) (s : st K V) (e : K * V).

Definition Was lg e : Prop := exists t, In (EIns t (fst e) (snd e)) lg.
Definition EP h lg : Prop := forall y e, In e (ents (h y)) -> Was lg e.
Definition ES s : Prop := EP (hp s) (log s).

Lemma was_app l lg e : Was lg e -> Was (l ++ lg) e.
Proof. intros [t H]. exists t. apply in_app_iff. auto. Qed.
Lemma was_sometime lg e : Was lg e -> sometime leb lg 0 (length lg) (fst e) (snd e).
Proof.
  intros [t H]. apply in_split in H as (l1 & l2 & ->). exists (S (length l2)). split; [rewrite app_length; cbn; lia|].
  change (S (length l2)) with (length (EIns t (fst e) (snd e) :: l2)). rewrite at_app by lia. rewrite at_len. cbn.
  unfold keqb. destruct (t_total _ HO (fst e) (fst e)) as [E|E]; now rewrite E.
Qed.

(** ** The tree *)
Lemma es_put s x (o : obj K V) : ES s -> (forall e, In e (ents o) -> Was (log s) e) -> ES (put s x o).
Proof. intros E Q y e. cbn. unfold upd. destruct (y =? x); [apply Q|apply E]. Qed.
Lemma es_modi s x (f : obj K V -> obj K V) : (forall o, ents (f o) = ents o) -> ES s -> ES (modi s x f).
Proof. intros F E. apply es_put; auto. intros e. rewrite F. apply E. Qed.
Lemma es_alloc s (o : obj K V) : ES s -> (forall e, In e (ents o) -> Was (log s) e) -> ES (alloc s o).
Proof. intros E Q y e. cbn. unfold upd. destruct (y =? fresh s); [apply Q|apply E]. Qed.
Lemma es_op s t p : ES s -> ES (with_op s t p).
Proof. auto. Qed.
Lemma es_root s r : ES s -> ES (with_root s r).
Proof. auto. Qed.
Lemma es_crash s : ES s -> ES (crash s).
Proof. auto. Qed.
Lemma es_log s l : ES s -> ES (with_log s (l :: log s)).
Proof. intros E y e H. apply (was_app [l]). now apply (E y). Qed.
Lemma es_mark s x w : ES s -> ES (mark s x w).
Proof. intros E y e. cbn. destruct (inch _ _ _ _); apply E. Qed.
Lemma es_commit s c : ES s -> ES (commit_child s c).
Proof. intros E. unfold commit_child. destruct (jb (hp s c)); auto. now apply es_modi. Qed.
Lemma ptr_ents (x : obj K V) o c : ents (set_ptr x o c) = ents x.
Proof. destruct o; reflexivity. Qed.
Lemma build_ents (x : obj K V) o m lo hi b w mid xl xh : build x o m lo hi b w = Some (mid, xl, xh) -> ents xl = [] /\ ents xh = [].
Proof.
  unfold build. destruct (repl x o m lo hi) as [es u]. destruct b; [discriminate|]. destruct (nth_error es b) as [[k c]|]; [|discriminate].
  intros [= <- <- <-]. auto.
Qed.
Lemma es_take s n o b s' : ES s -> take s n o b = Some s' -> ES s'.
Proof.
  unfold take. intros E. destruct (jb (hp s n)); try discriminate. destruct (ptr (hp s n) o) as [c|]; [|discriminate].
  destruct (lvl (hp s c)); [discriminate|]. destruct (jb (hp s c)) as [| | | | | | |o1 c1 m1 lo1 hi1 [tk|] lns1| |]; try discriminate.
  destruct (build _ _ _ _ _ _ _) as [[[mid xl] xh]|] eqn:B; [|discriminate]. intros [= <-]. apply build_ents in B as [B1 B2].
  apply es_modi; auto. apply es_alloc; [apply es_alloc; [now apply es_modi|]|]; intros e; rewrite ?B1, ?B2; intros [].
Qed.
Lemma es_ins s n s' : ES s -> ins_low leb s n = Some s' -> ES s'.
Proof.
  unfold ins_low. intros E. destruct (jb (hp s n)); try discriminate. destruct (has_key _ _ _); intros [= <-]; [now apply es_crash|].
  apply es_modi; auto. apply es_modi; auto. now apply es_mark.
Qed.
Lemma es_swap s n s' : ES s -> swap_high s n = Some s' -> ES s'.
Proof.
  unfold swap_high. intros E. destruct (jb (hp s n)) as [| | | |o c lo| |o c m lo hi [|]| | |]; try discriminate; intros [= <-].
  - apply es_modi; [intros; apply ptr_ents|]. now apply es_modi.
  - apply es_modi; [intros; apply ptr_ents|]. now apply es_commit.
Qed.

Ltac brk H := repeat match type of H with context [match ?e with _ => _ end] => lazymatch e with take _ _ _ _ => fail | _ => destruct e eqn:?; try discriminate end end.
Ltac es := repeat (try assumption; lazymatch goal with
  | |- ES (with_op _ _ _) => apply es_op
  | |- ES (with_root _ _) => apply es_root
  | |- ES (crash _) => apply es_crash
  | |- ES (commit_child _ _) => apply es_commit
  | |- ES (modi _ _ _) => apply es_modi; [reflexivity|]
  | |- ES (alloc _ _) => apply es_alloc; [|let He := fresh in intros ? He; cbn in He; destruct He; fail]
  end).
Lemma es_step_op a s t p s' : ES s -> step_op leb a s t p = Some s' -> ES s'.
Proof.
  intros E H. destruct a; cbn [step_op] in H; try discriminate; unfold fin, goto in H; cbv zeta in H.
  all: try (brk H; injection H as <-; es; fail).
  destruct (pc p); try discriminate. destruct (kind p) as [k|k v|k cnd]; cbn [okey] in H.
  - injection H as <-; es.
  - destruct (_ || _); [injection H as <-; es|]. destruct (get leb (ents (hp s l)) k); [injection H as <-; es|].
    destruct full; injection H as <-; [es|]. apply es_op. intros y e. cbn. unfold upd. destruct (y =? l); cbn.
    + intros [<-|He]; [exists t; now left|]. apply (was_app [_]). now apply (E l).
    + intros He. apply (was_app [_]). now apply (E y).
  - destruct (negb _); [injection H as <-; es|]. destruct (get leb (ents (hp s l)) k) as [v|]; [|injection H as <-; es].
    destruct (cnd v); [|injection H as <-; es].
    assert (ES (with_log (put s l (set_ents (hp s l) (del leb (ents (hp s l)) k) match del leb (ents (hp s l)) k with [] => true | _ => false end)) (ERem t k :: log s))) as Q.
    { intros y e. cbn. unfold upd. destruct (y =? l); cbn; intros He; apply (was_app [_]); [|now apply (E y)].
      apply filter_In in He. now apply (E l). }
    destruct (del leb (ents (hp s l)) k); injection H as <-; apply es_op; exact Q.
Qed.
Lemma es_step_sys a s s' : ES s -> step_sys leb a s = Some s' -> ES s'.
Proof.
  intros E H. destruct a; cbn [step_sys] in H; try discriminate; cbv zeta in H.
  - brk H; injection H as <-; es.
  - brk H; injection H as <-; es.
  - destruct (jb (hp s n)); try discriminate; destruct (lvl (hp s n)) as [|[|l0]]; try discriminate;
      destruct (ub (hp s n)); try discriminate; destruct (ptr (hp s n) o) as [l|]; try discriminate;
      (destruct (negb _); [injection H as <-; es|]); (destruct m as [m|];
      [destruct (get leb (ents (hp s l)) m); try discriminate; destruct (above leb m (ents (hp s l))) as [|a0 r0] eqn:Ab; try discriminate; rewrite <- Ab in H|]); injection H as <-.
    all: apply es_modi; [reflexivity|]; apply es_alloc; [|cbn; intros e He; first [apply filter_In in He as [He _]|idtac]; exact (E l e He)]; es.
    all: apply es_alloc; [es|cbn; intros e He; apply filter_In in He as [He _]; exact (E l e He)].
  - eapply es_ins; eauto.
  - brk H; injection H as <-; es.
  - brk H; injection H as <-; es.
  - eapply es_swap; eauto.
  - eapply es_take; eauto.
  - brk H; injection H as <-; es.
  - brk H; injection H as <-; es.
  - brk H; injection H as <-. apply es_put; auto. apply E.
  - brk H; injection H as <-; apply es_put; auto; apply E.
  - brk H; injection H as <-. apply es_put; auto. apply E.
  - brk H; injection H as <-; apply es_put; auto; apply E.
  - destruct (root s) as [r|]; [|discriminate]. destruct (jb (hp s r)) as [| | | | | | |o1 c1 m1 lo1 hi1 [tk|] lns1| |]; try discriminate.
    unfold bind in H. destruct (take _ _ _ _) as [s1|] eqn:T; [|discriminate]. apply es_take in T; [|es].
    destruct (ins_low leb s1 (fresh s)) as [s2|] eqn:I; [|discriminate]. apply es_ins in I; auto.
    destruct (err s2); [now injection H as <-|]. eapply es_swap; eauto.
  - brk H; injection H as <-; apply es_root, es_put; auto; apply E.
  - brk H; injection H as <-; apply es_root, es_put; auto; apply E.
Qed.
Lemma es_step a s s' : ES s -> step leb a s = Some s' -> ES s'.
Proof.
  intros E H. unfold step in H. destruct (err s); [discriminate|].
  destruct a; cbn [actor] in H; try (destruct (ops s t) as [p|]; [|discriminate]; eapply es_step_op; eauto; fail); try (eapply es_step_sys; eauto; fail).
  destruct (ops s t); [discriminate|]. injection H as <-. es.
Qed.

(** ** Iterators *)
Definition Wi lg (x : iter K V) : Prop :=
  (forall e, In e (out x) -> Was lg e)
  /\ match ipos x with IAt _ r _ => forall e, In e r -> Was lg e | ISnap _ _ _ es => forall e, In e es -> Was lg e | _ => True end.
Lemma wi_app l lg x : Wi lg x -> Wi (l ++ lg) x.
Proof. intros [A B]. split; [intros; apply was_app; auto|]. destruct (ipos x); auto; intros; apply was_app; auto. Qed.
Lemma wi_step (s : ls K V) x : ES (tc s) -> Wi (log (tc s)) x -> Wi (log (tc s)) (istep leb s x).
Proof.
  intros E [A B]. assert (forall e (l : list (K * V)), (forall a, In a (e :: l) -> Was (log (tc s)) a) -> forall a, In a (out x ++ [e]) -> Was (log (tc s)) a) as Q.
  { intros e l P a Ha. apply in_app_iff in Ha as [Ha|[<-|[]]]; auto. apply P. now left. }
  assert (forall z e, In e (sortk leb (ents (nd s z))) -> Was (log (tc s)) e) as R.
  { intros z e He. apply in_sortk in He. exact (E z e He). }
  unfold istep. destruct x as [p b o]. cbn [ipos it0 out] in *. destruct p as [|top n|top n M|top n M c|c|c r last|c last z|c last z|c last z|c last z es|e].
  all: try (repeat match goal with |- context [match ?e with _ => _ end] => destruct e end; split; auto; fail).
  - split; cbn; auto. apply R.
  - destruct r as [|e r]; split; cbn; auto; [apply (Q e r B)|]. intros a Ha. apply B. now right.
  - split; cbn; auto. apply R.
  - assert (forall u, In u (fresh_only leb s c last es) -> Was (log (tc s)) u) as F by (intros u Hu; apply fresh_in in Hu; auto).
    destruct (fresh_only leb s c last es) as [|e r]; split; cbn; auto; [apply (Q e r F)|]. intros a Ha. apply F. now right.
Qed.
Lemma ls_log a (s s' : ls K V) : lsstep leb a s = Some s' -> ES (tc s) -> ES (tc s') /\ exists l, log (tc s') = l ++ log (tc s).
Proof.
  intros H E. destruct a as [a|a|[j|j]]; cbn [lsstep] in H.
  - apply t_parts in H as [H _]. split; [eapply es_step; eauto|]. eapply log_step; eauto.
  - pose proof (l_tc _ _ _ H) as ->. split; auto. now exists [].
  - destruct (its s j); [discriminate|]. injection H as <-. split; auto. now exists [].
  - destruct (its s j); [|discriminate]. injection H as <-. split; auto. now exists [].
Qed.
Lemma es_init : ES (@init K V).
Proof. intros y e []. Qed.

Definition Wm lg (x : mit K V) : Prop := match mp x with MGo y => Wi lg y | _ => True end.
Definition WM (s : tms K V) : Prop := ES (tc (ml s)) /\ forall i x, mis s i = Some x -> Wm (log (tc (ml s))) x.
Lemma wm_step (s : ls K V) x : ES (tc s) -> Wm (log (tc s)) x -> Wm (log (tc s)) (mstep leb s x).
Proof.
  intros E W. unfold Wm, mstep in *. destruct x as [p b o]. cbn [mp m0 on] in *.
  assert (forall q, match q with IAt _ _ _ | ISnap _ _ _ _ => False | _ => True end -> Wi (log (tc s)) (Iter q b [])) as N.
  { intros q Q. split; [intros ? []|]. cbn. destruct q; auto; destruct Q. }
  destruct p as [|f n|f n M [|[k j] r]|f n M r u c|y]; cbn; try exact I.
  - destruct (root (tc s)); cbn; auto.
  - destruct (ub (nd s n)); cbn; auto; destruct f as [|[[n' M'] r'] f']; cbn; auto.
  - destruct (slot_child _ _); cbn; auto.
  - destruct (meta_eqb _ _ _); cbn; auto. destruct (_ =? _); cbn; auto.
  - now apply wi_step.
Qed.
Lemma wm_run l : forall s s' : tms K V, WM s -> mrun leb l s = Some s' -> WM s'.
Proof.
  induction l as [|a l IH]; cbn; intros s s' [E W] H; [injection H as <-; now split|]. destruct (msys leb a s) as [s1|] eqn:St; [|discriminate].
  apply (IH s1); auto. clear IH H. destruct a as [a|i|i]; cbn [msys] in St.
  - destruct (lsstep leb a (ml s)) as [u|] eqn:L; [|discriminate]. injection St as <-. destruct (ls_log _ _ _ L E) as [E' [m El]]. split; auto. cbn.
    intros i x Hx. specialize (W i x Hx). unfold Wm in *. destruct (mp x); auto. rewrite El. now apply wi_app.
  - destruct (mis s i); [discriminate|]. injection St as <-. split; auto. intros i' x. cbn. unfold upd. destruct (i' =? i); [|apply W].
    intros [= <-]. exact Logic.I.
  - destruct (mis s i) as [x0|] eqn:Ei; [|discriminate]. injection St as <-. split; auto. intros i' x. cbn. unfold upd. destruct (i' =? i); [|apply W].
    intros [= <-]. apply wm_step; auto. now apply (W i).
Qed.

(** ** Ranges *)
Definition Wl lg (r : lr K V) : Prop :=
  (forall e, In e (ly r) -> Was lg e) /\ (forall e, lpend r = Some e -> Was lg e) /\ match ph r with PI x => Wi lg x | _ => True end.
Lemma less_in (es : list (K * V)) k e r : less_entry leb es k = Some (e, r) -> forall a, In a (e :: r) -> In a es.
Proof.
  induction es as [|d es IH]; cbn; [discriminate|]. destruct (ltb leb (fst d) k); [|discriminate]. destruct (less_entry leb es k) as [[e' r']|].
  - intros [= <- <-] a Ha. right. now apply IH.
  - intros [= <- <-] a Ha. exact Ha.
Qed.
Lemma dstep_at b (s : ls K V) d c e r : ES (tc s) -> dstep leb b s d = RAt c e r -> forall a, In a (e :: r) -> Was (log (tc s)) a.
Proof.
  intros E H.
  assert (forall z a, In a (sortk leb (ents (nd s z))) -> Was (log (tc s)) a) as R.
  { intros z a He. apply in_sortk in He. exact (E z a He). }
  assert (forall rt st, fall rt st <> @RAt K V c e r) as F by (intros rt [|n st]; discriminate).
  assert (forall rt k, no_min rt k <> @RAt K V c e r) as F' by (intros rt [st|]; [apply F|discriminate]).
  destruct d; cbn [dstep] in H; try discriminate.
  - destruct (root (tc s)); [|discriminate]. destruct (lkey b); discriminate.
  - destruct (lkey b); [|discriminate]. destruct (less_slot leb M k); [|discriminate]. destruct (slot_child _ _); discriminate.
  - destruct (meta_eqb _ _ _); [|discriminate]. destruct (_ =? _); discriminate.
  - destruct (lkey b) as [k|]; [|discriminate]. destruct (less_entry leb _ k) as [[e' r']|] eqn:L; [|discriminate]. injection H as <- <- <-.
    intros a Ha. eapply R, less_in; eauto.
  - destruct r0 as [|[k1 j] r0]; [|destruct (slot_child _ _); discriminate]. destruct (ub (nd s n)); try discriminate; destruct f as [|[[n' M'] r'] f']; try discriminate; now apply F' in H.
  - destruct (meta_eqb _ _ _); [|discriminate]. destruct (_ =? _); discriminate.
  - destruct (sortk leb (ents (nd s c0))) as [|e' r'] eqn:So; [discriminate|].
    assert (RAt c0 e' r' = RAt c e r) as Q. { destruct k as [st|]; auto. destruct (lkey b); [|discriminate]. destruct (leb _ _); auto. now apply F in H. }
    injection Q as <- <- <-. rewrite <- So. apply R.
  - destruct (link s c0); [discriminate|]. now apply F' in H.
  - destruct (dl s c0); discriminate.
Qed.
Lemma emits_was (s : ls K V) x e : Wi (log (tc s)) x -> emits leb s x = Some e -> Was (log (tc s)) e.
Proof.
  intros [_ B] H. unfold emits in H. destruct (ipos x); try discriminate.
  - destruct rest; [discriminate|]. injection H as <-. apply B. now left.
  - destruct (fresh_only _ _ _ _ _) as [|a r] eqn:F; [discriminate|]. injection H as <-. apply B. eapply (fresh_in leb s). rewrite F. now left.
Qed.
Lemma judge_was lg (r : lr K V) c e x : (forall a, In a (ly r) -> Was lg a) -> Was lg e -> Wi lg x -> Wl lg (judge leb r c e x).
Proof.
  intros A B C. unfold judge. destruct (_ && _); [|destruct (_ && _)]; repeat split; cbn; auto; try discriminate; try apply C.
  intros a Ha. apply in_app_iff in Ha as [Ha|[<-|[]]]; auto.
Qed.
Lemma wl_next (s : lbs K V) r r' : ES (tc (bl s)) -> Wl (log (tc (bl s))) r -> lnext leb s r = Some r' -> Wl (log (tc (bl s))) r'.
Proof.
  intros E (A & B & C) H. unfold lnext in H. destruct (lend r); [discriminate|]. destruct (ph r) as [d|x].
  - destruct (dstep leb (llo r) (bl s) d) as [d'|c e rest|] eqn:D; injection H as <-; repeat split; cbn; auto; try discriminate.
    + intros a [= <-]. apply (dstep_at _ _ _ _ _ _ E D). now left.
    + intros a [<-|[]]. apply (dstep_at _ _ _ _ _ _ E D). now left.
    + intros a Ha. apply (dstep_at _ _ _ _ _ _ E D). now right.
  - pose proof (wi_step (bl s) x E C) as C'. destruct (lpend r) as [e|].
    + destruct (ipos x); try discriminate. injection H as <-. apply judge_was; auto.
    + destruct (emits leb (bl s) x) as [e|] eqn:Em.
      * pose proof (emits_was _ _ _ C Em) as We. destruct (same_leaf x); injection H as <-; [now apply judge_was|].
        split; [exact A|]. split; [|exact C']. cbn. intros a [= <-]. exact We.
      * injection H as <-. split; [exact A|]. split; [discriminate|exact C'].
Qed.
Definition WB (s : lbs K V) : Prop := ES (tc (bl s)) /\ forall i r, lrs s i = Some r -> Wl (log (tc (bl s))) r.
Lemma wb_run l : forall s s' : lbs K V, WB s -> lbrun leb l s = Some s' -> WB s'.
Proof.
  induction l as [|a l IH]; cbn; intros s s' [E W] H; [injection H as <-; now split|]. destruct (lbstep leb a s) as [s1|] eqn:St; [|discriminate].
  apply (IH s1); auto. clear IH H. destruct a as [a|i lo up|i]; cbn [lbstep] in St.
  - destruct (lsstep leb a (bl s)) as [u|] eqn:L; [|discriminate]. injection St as <-. destruct (ls_log _ _ _ L E) as [E' [m El]]. split; auto. cbn.
    intros i r Hr. destruct (W i r Hr) as (A & B & C). rewrite El. split; [intros; apply was_app; auto|]. split; [intros; apply was_app; auto|].
    destruct (ph r); auto. now apply wi_app.
  - destruct (lrs s i); [discriminate|]. injection St as <-. split; auto. intros i' r. cbn. unfold upd. destruct (i' =? i); [|apply W].
    intros [= <-]. split; [intros ? []|]. split; [discriminate|exact Logic.I].
  - destruct (lrs s i) as [r0|] eqn:Ei; [|discriminate]. destruct (lnext leb s r0) as [r1|] eqn:N; [|discriminate]. injection St as <-. split; auto.
    intros i' r. cbn. unfold upd. destruct (i' =? i); [|apply W]. intros [= <-]. eapply wl_next; eauto.
Qed.
End facts.
