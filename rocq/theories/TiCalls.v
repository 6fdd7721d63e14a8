(** Iterators and calls: what has been inserted, or removed, before an iterator is created. *)
From Coq Require Import List Arith Bool Lia.
From Verif Require Import TcModel TcRoute TcSpec TcOps TcRun TcLin TcLins TiModel TiSpec TiSys TiCur TiLoop.
Import ListNotations.

Section calls.
Context {K V : Type} (leb : K -> K -> bool) (HO : tord leb).
Implicit Types (s : ls K V) (k : K) (v w : V) (t i j : nat) (lg : list (ev K V)).

Lemma run_app a b (s s' : st K V) : run leb a s = Some s' -> run leb (a ++ b) s = run leb b s'.
Proof. revert s. induction a as [|x a IH]; cbn; intros s H; [now injection H as ->|]. destruct (step leb x s); [auto|discriminate]. Qed.
Lemma run_tc l : forall s s', lsrun leb l s = Some s' -> exists a, run leb a (tc s) = Some (tc s').
Proof.
  induction l as [|x l IH]; cbn; intros s s' H; [injection H as <-; now exists []|]. destruct (lsstep leb x s) as [s1|] eqn:E; [|discriminate].
  destruct (IH _ _ H) as [a Ha].
  assert (tc s1 = tc s \/ exists y, step leb y (tc s) = Some (tc s1)) as [Et|[y Hy]].
  { destruct x as [x|x|[i|i]]; cbn [lsstep] in E.
    - right. exists x. now apply t_parts in E.
    - left. now apply l_tc in E.
    - left. destruct (its s i); [discriminate|]. now injection E as <-.
    - left. destruct (its s i); [|discriminate]. now injection E as <-. }
  - exists a. now rewrite <- Et.
  - exists (y :: a). cbn. now rewrite Hy.
Qed.
Lemma log_step (a : act K V) (s s' : st K V) : step leb a s = Some s' -> exists l, log s' = l ++ log s.
Proof.
  intros H. unfold step in H. destruct (err s); [discriminate|]. destruct (actor a) as [t|] eqn:A.
  - assert (match ops s t with Some p => step_op leb a s t p | None => None end = Some s') as H'
      by (destruct a; try discriminate A; rewrite <- H; congruence).
    destruct (ops s t) as [p|] eqn:E; [|discriminate]. destruct (ops_op leb _ _ _ _ _ E H') as (p' & _ & _ & _ & _ & [El|[e El]]); rewrite El; [now exists []|now exists [e]].
  - destruct a; try discriminate A.
    1: { destruct (ops s t); [discriminate|]. injection H as <-. now exists []. }
    all: apply (ops_sys leb) in H as [_ El]; auto; try (intros; discriminate); exists []; exact El.
Qed.
Lemma log_run l : forall (s s' : st K V), run leb l s = Some s' -> exists d, log s' = d ++ log s.
Proof.
  induction l as [|a l IH]; cbn; intros s s' H; [injection H as <-; now exists []|]. destruct (step leb a s) as [s1|] eqn:E; [|discriminate].
  destruct (IH _ _ H) as [d Hd]. destruct (log_step _ _ _ E) as [d1 H1]. exists (d ++ d1). rewrite Hd, H1. now rewrite app_assoc.
Qed.
Lemma it_after l : forall s s' i x, lsrun leb l s = Some s' -> its s i = None -> its s' i = Some x -> length (log (tc s)) <= it0 x.
Proof.
  assert (forall l s s' i x y, lsrun leb l s = Some s' -> its s i = Some y -> its s' i = Some x -> it0 x = it0 y) as Q.
  { clear l. induction l as [|a l IH]; cbn; intros s s' i x y H Hy Hx; [injection H as <-; congruence|].
    destruct (lsstep leb a s) as [s1|] eqn:E; [|discriminate].
    assert (exists z, its s1 i = Some z /\ it0 z = it0 y) as (z & Hz & <-).
    { destruct a as [a|a|[i'|i']]; cbn [lsstep] in E.
      - apply t_parts in E as (_ & _ & _ & ->). eauto.
      - apply l_its in E as (-> & _). eauto.
      - destruct (its s i') eqn:Ei; [discriminate|]. injection E as <-. cbn. unfold upd. destruct (Nat.eqb_spec i i') as [->|]; [congruence|eauto].
      - destruct (its s i') as [w|] eqn:Ei; [|discriminate]. injection E as <-. cbn. unfold upd. destruct (Nat.eqb_spec i i') as [->|]; [|eauto].
        eexists; split; [reflexivity|]. assert (w = y) as -> by congruence. unfold istep.
        destruct (ipos y) as [|top n|top n M|top n M c|c|c [|e r] last|c last z|c last z|c last z|c last z es|e]; auto;
          repeat match goal with |- context [match ?e with _ => _ end] => destruct e end; auto. }
    eapply IH; eauto. }
  induction l as [|a l IH]; cbn; intros s s' i x H Hn Hx; [injection H as <-; congruence|].
  destruct (lsstep leb a s) as [s1|] eqn:E; [|discriminate]. destruct (run_tc [a] s s1) as [acts Ha]; [cbn; now rewrite E|].
  destruct (log_run _ _ _ Ha) as [d Hd]. destruct (its s1 i) as [y|] eqn:Ey; [|specialize (IH _ _ _ _ H Ey Hx); rewrite Hd, app_length in IH; lia].
  rewrite (Q l s1 s' i x y H Ey Hx). destruct a as [a|a|[i'|i']]; cbn [lsstep] in E.
  - apply t_parts in E as (_ & _ & _ & E). congruence.
  - apply l_its in E as (E & _). congruence.
  - destruct (its s i') eqn:Ei; [discriminate|]. injection E as <-. cbn in Ey. unfold upd in Ey. destruct (Nat.eqb_spec i i') as [->|]; [|congruence].
    injection Ey as <-. cbn. lia.
  - destruct (its s i') eqn:Ei; [|discriminate]. injection E as <-. cbn in Ey. unfold upd in Ey. destruct (Nat.eqb_spec i i') as [->|]; congruence.
Qed.

(** ** The history after an update *)
Lemma keqb_refl k : keqb leb k k = true.
Proof. unfold keqb. now rewrite (leb_refl leb HO). Qed.
Lemma abs_ins lg call k v i0 t : sound leb lg call -> ev_i lg i0 = Some (EIns t k v) ->
  (forall i u, ev_i lg i = Some (ERem u k) -> i <= i0) -> forall j, i0 < j <= length lg -> abs leb (at_i lg j) k = Some v.
Proof.
  intros So E0 Nr. induction j as [|j IH]; [lia|]. intros Hj.
  destruct (Nat.eq_dec j i0) as [->|N].
  - rewrite (at_succ lg i0 _ E0). cbn. now rewrite keqb_refl.
  - assert (abs leb (at_i lg j) k = Some v) as A by (apply IH; lia).
    destruct (ev_i lg j) as [a|] eqn:Ea.
    + rewrite (at_succ lg j _ Ea). cbn. destruct a as [u a w|u a]; destruct (keqb leb k a) eqn:Ek; auto; apply (keqb_eq leb HO) in Ek; subst a.
      * destruct (So j _ Ea) as (u' & q & b & _ & _ & _ & F). cbn in F. destruct F as [_ F]. congruence.
      * specialize (Nr j u Ea). lia.
    + unfold ev_i in Ea. apply nth_error_None in Ea. rewrite rev_length in Ea. lia.
Qed.
Lemma abs_rem lg k i0 t : ev_i lg i0 = Some (ERem t k) ->
  (forall i u w, ev_i lg i = Some (EIns u k w) -> i <= i0) -> forall j, i0 < j <= length lg -> abs leb (at_i lg j) k = None.
Proof.
  intros E0 Nr. induction j as [|j IH]; [lia|]. intros Hj.
  destruct (Nat.eq_dec j i0) as [->|N].
  - rewrite (at_succ lg i0 _ E0). cbn. now rewrite keqb_refl.
  - assert (abs leb (at_i lg j) k = None) as A by (apply IH; lia).
    destruct (ev_i lg j) as [a|] eqn:Ea.
    + rewrite (at_succ lg j _ Ea). cbn. destruct a as [u a w|u a]; destruct (keqb leb k a) eqn:Ek; auto; apply (keqb_eq leb HO) in Ek; subst a.
      specialize (Nr j u w Ea). lia.
    + unfold ev_i in Ea. apply nth_error_None in Ea. rewrite rev_length in Ea. lia.
Qed.

(** ** Calls that have returned *)
Section three.
Context la lb lc (sa sb s : ls K V) (Ra : lsrun leb la linit = Some sa) (Rb : lsrun leb lb sa = Some sb) (Rc : lsrun leb lc sb = Some s).
Lemma lsrun_app a b : forall x y : ls K V, lsrun leb a x = Some y -> lsrun leb (a ++ b) x = lsrun leb b y.
Proof. induction a as [|z a IH]; cbn; intros x y H; [now injection H as ->|]. destruct (lsstep leb z x); [auto|discriminate]. Qed.
Lemma Rabc : lsrun leb (la ++ lb ++ lc) linit = Some s.
Proof. rewrite (lsrun_app _ _ _ _ Ra). now rewrite (lsrun_app _ _ _ _ Rb). Qed.
Lemma inv_of l (x : ls K V) : lsrun leb l linit = Some x -> Inv leb (tc x).
Proof. intros R. apply (si_run leb HO l _ _ (si_init leb) R). Qed.
(** The updates of the calls in [P] are all older than [sa]. *)
Lemma old (P : opk K V -> Prop) : all_returned sa P -> none_begins sa s P ->
  forall i a, ev_i (log (tc s)) i = Some a ->
  (forall q before, fits q before a -> P q) -> i < length (log (tc sa)).
Proof.
  intros Al No i a Ea HP. pose proof (inv_of _ _ Rabc) as I.
  destruct (i_sound _ _ I i a Ea) as (t & q & b & Bc & Cl & Hb & F). specialize (HP _ _ F).
  unfold calls in Cl. destruct (ops (tc s) t) as [p|] eqn:Ep; [|discriminate]. injection Cl as Ek E0.
  destruct (No t q) as (pa & Epa & Eka); [exists p; auto|auto|].
  destruct (Al t q) as (r & p1 & e & Ep1 & Pc); [exists pa; auto|auto|]. assert (p1 = pa) as -> by congruence.
  destruct (run_tc _ _ _ Rb) as [ab Hab]. destruct (run_tc _ _ _ Rc) as [ac Hac].
  assert (run leb (ab ++ ac) (tc sa) = Some (tc s)) as Hr by now rewrite (run_app _ _ _ _ Hab).
  destruct (run_ops leb _ _ _ Hr) as (A1 & _). destruct (A1 _ _ Epa) as (p' & Ep' & _ & _ & D). specialize (D _ _ Pc) as ->.
  assert (pa = p) as -> by congruence.
  pose proof (o_log _ _ _ _ _ _ (i_op _ _ I t p Ep)) as X. rewrite Pc in X.
  pose proof (o_log _ _ _ _ _ _ (i_op _ _ (inv_of _ _ Ra) t p Epa)) as Xa. rewrite Pc in Xa. destruct Xa as [Xa _].
  destruct X as [_ X]. destruct (kind p) as [k1|k1 v1|k1 c1] eqn:Ekp; destruct r as [v2|[]| |[]]; try contradiction.
  - destruct X as [X _]. now destruct (X i a Ea).
  - destruct X as (i' & Hi' & _ & X). rewrite (X i a Ea Bc). lia.
  - destruct X as [X _]. now destruct (X i a Ea).
  - now destruct (X i a Ea).
  - destruct X as (_ & X). specialize (X i a Ea Bc). lia.
  - destruct X as [X _]. now destruct (X i a Ea).
Qed.
(** When a call began after [sa] and has returned in [sb]. *)
Lemma when t q r : ops (tc sa) t = None -> call sb t q -> returned (tc sb) t r ->
  exists b e, explains leb (log (tc s)) t q b e r /\ length (log (tc sa)) <= b /\ e <= length (log (tc sb)).
Proof.
  intros Hn (p & Hp & Hk) (p1 & e & Hp1 & Pc). assert (p1 = p) as -> by congruence. clear Hp1.
  destruct (run_tc _ _ _ Rb) as [ab Hab]. destruct (run_tc _ _ _ Rc) as [ac Hac].
  destruct (run_ops leb _ _ _ Hab) as (_ & A2 & _). specialize (A2 _ _ Hn Hp).
  destruct (run_ops leb _ _ _ Hac) as (A1 & _). destruct (A1 _ _ Hp) as (p' & Hp' & _ & _ & D). specialize (D _ _ Pc) as ->.
  pose proof (o_log _ _ _ _ _ _ (i_op _ _ (inv_of _ _ Rabc) t p Hp')) as X. rewrite Pc, Hk in X.
  assert (lsrun leb (la ++ lb) linit = Some sb) as Rab by now rewrite (lsrun_app _ _ _ _ Ra).
  pose proof (o_log _ _ _ _ _ _ (i_op _ _ (inv_of _ _ Rab) t p Hp)) as Y. rewrite Pc in Y. destruct Y as [Y _].
  exists (t0 p), e. split; auto. lia.
Qed.
Lemma ins_held t k v : all_returned sa (removal k) -> none_begins sa s (removal k) -> ops (tc sa) t = None -> call sb t (OIns k v) ->
  returned (tc sb) t (RIns true) -> forall j, length (log (tc sb)) <= j <= length (log (tc s)) -> abs leb (at_i (log (tc s)) j) k = Some v.
Proof.
  intros Al No Hn Hc Hr j Hj. destruct (when t _ _ Hn Hc Hr) as (b & e & (_ & i0 & Hi & E0 & _) & Hb & He).
  eapply abs_ins; eauto; [apply (i_sound _ _ (inv_of _ _ Rabc))| |lia]. intros i u Eu.
  apply (old _ Al No) in Eu; [lia|]. intros q before (c & w & -> & _). now exists c.
Qed.
Lemma rem_gone t k c : all_returned sa (insertion k) -> none_begins sa s (insertion k) -> ops (tc sa) t = None -> call sb t (ORem k c) ->
  returned (tc sb) t (RRem true) -> forall j, length (log (tc sb)) <= j <= length (log (tc s)) -> abs leb (at_i (log (tc s)) j) k = None.
Proof.
  intros Al No Hn Hc Hr j Hj. destruct (when t _ _ Hn Hc Hr) as (b & e & (_ & (i0 & Hi & E0) & _) & Hb & He).
  eapply abs_rem; eauto; [|lia]. intros i u w Eu.
  apply (old _ Al No) in Eu; [lia|]. intros q before (-> & _). now exists w.
Qed.
Lemma seen_inserted t k v i b e y : all_returned sa (removal k) -> none_begins sa s (removal k) -> ops (tc sa) t = None ->
  call sb t (OIns k v) -> returned (tc sb) t (RIns true) -> its sb i = None -> iterated s i b y -> finished s i e -> In (k, v) y.
Proof.
  intros Al No Hn Hc Hr Hi (x & Hx & <- & <-) (x' & Hx' & P). assert (x' = x) as -> by congruence.
  pose proof (it_after _ _ _ _ _ Rc Hi Hx) as Hb.
  destruct (ri_run leb HO _ _ _ (ri_init leb) Rabc) as [_ A]. destruct (A i x Hx) as [_ _ Q]. rewrite P in Q. destruct Q as (Q0 & Q & _).
  apply Q. intros j Hj. apply (ins_held t k v); auto. cbn in Q0. lia.
Qed.
Lemma skipped_removed t k c i b y w : all_returned sa (insertion k) -> none_begins sa s (insertion k) -> ops (tc sa) t = None ->
  call sb t (ORem k c) -> returned (tc sb) t (RRem true) -> its sb i = None -> iterated s i b y -> ~ In (k, w) y.
Proof.
  intros Al No Hn Hc Hr Hi (x & Hx & <- & <-) Hy. pose proof (it_after _ _ _ _ _ Rc Hi Hx) as Hb.
  destruct (ri_run leb HO _ _ _ (ri_init leb) Rabc) as [_ A]. destruct (A i x Hx) as [_ O _]. destruct (O _ Hy) as (j & Hj & Aj). cbn in Hj, Aj.
  rewrite (rem_gone t k c) in Aj; auto; [discriminate|lia].
Qed.
End three.
End calls.
