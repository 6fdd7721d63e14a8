(** Facts about histories: appending events, and adding an operation without effect in the past. *)
From stdpp Require Import prelude list.
From Verif Require Import LeafModel LeafSpec LeafConc LeafLin.

Section hist.
Context {K V : Type} (cmp : K -> K -> comparison) (strict : bool) (a0 : obj K V).
Notation op := (op K V). Notation res := (res V). Notation hev := (hev K V). Notation obj := (obj K V).
Notation legal := (legal cmp strict).
Implicit Types (h : list hev) (a : obj) (t u : nat) (o : op) (r : res).

Definition who (e : hev) : nat := match e with HCall u _ | HLin u _ _ | HRet u _ => u end.

Lemma allowed_det o r a a1 a2 : allowed cmp strict o r a a1 -> allowed cmp strict o r a a2 -> a1 = a2.
Proof.
  destruct o, r as [| [] | [] |]; simpl; try done; intros H1 H2.
  all: repeat match goal with H : _ /\ _ |- _ => destruct H end; congruence.
Qed.
Lemma legal_det h : forall a a1 a2, legal a h a1 -> legal a h a2 -> a1 = a2.
Proof.
  induction h as [|e h IH]; intros a a1 a2 H1 H2; inversion H1; subst; inversion H2; subst; eauto.
  match goal with A : allowed _ _ _ _ _ ?x, B : allowed _ _ _ _ _ ?y |- _ =>
    assert (x = y) as -> by (eapply allowed_det; eauto) end. eauto.
Qed.
Lemma legal_app h1 h2 a a2 : legal a (h1 ++ h2) a2 <-> exists a1, legal a h1 a1 /\ legal a1 h2 a2.
Proof.
  revert a. induction h1 as [|e h1 IH]; intros a; simpl.
  - split; [intros H; exists a; split; [constructor|done]|]. intros (a1 & H1 & H2). by inversion H1; subst.
  - split.
    + intros H. inversion H; subst; match goal with X : legal _ (h1 ++ h2) _ |- _ => apply IH in X as (a1 & ? & ?) end;
        exists a1; split; try done; econstructor; eauto.
    + intros (a1 & H1 & H2). inversion H1; subst; econstructor; eauto; apply IH; eauto.
Qed.
Lemma legal_call h a t o a1 : legal a h a1 -> legal a (h ++ [HCall t o]) a1.
Proof. intros H. apply legal_app. exists a1. split; [done|]. repeat constructor. Qed.
Lemma legal_ret h a t r a1 : legal a h a1 -> legal a (h ++ [HRet t r]) a1.
Proof. intros H. apply legal_app. exists a1. split; [done|]. repeat constructor. Qed.
Lemma legal_lin h a t o r a1 a2 : legal a h a1 -> allowed cmp strict o r a1 a2 -> legal a (h ++ [HLin t o r]) a2.
Proof. intros H A. apply legal_app. exists a1. split; [done|]. econstructor; [done|constructor]. Qed.

Lemma follows_app t h1 h2 p q : follows t p (h1 ++ h2) q <-> exists p1, follows t p h1 p1 /\ follows t p1 h2 q.
Proof.
  revert p. induction h1 as [|e h1 IH]; intros p; simpl.
  - split; [intros H; exists p; split; [constructor|done]|]. intros (p1 & H1 & H2). by inversion H1; subst.
  - split.
    + intros H. inversion H; subst; match goal with X : follows _ _ (h1 ++ h2) _ |- _ => apply IH in X as (p1 & ? & ?) end;
        exists p1; split; try done; econstructor; eauto.
    + intros (p1 & H1 & H2). inversion H1; subst; econstructor; eauto; apply IH; eauto.
Qed.
Lemma follows_other t h p q e : who e <> t -> follows t p h q -> follows t p (h ++ [e]) q.
Proof. intros N H. apply follows_app. exists q. split; [done|]. apply fo_other; [done|constructor]. Qed.
(** Events of other threads are invisible. *)
Lemma follows_insert t h1 h2 p q e : who e <> t -> follows t p (h1 ++ h2) q -> follows t p (h1 ++ e :: h2) q.
Proof.
  intros N H. apply follows_app in H as (p1 & H1 & H2). apply follows_app. exists p1. split; [done|].
  by apply fo_other.
Qed.
Lemma follows_skip t h : Forall (fun e => who e <> t) h -> forall p q, follows t p h q -> p = q.
Proof.
  induction 1 as [|e h He Hh IH]; intros p q H; [by inversion H|].
  inversion H; subst; simpl in He; try done. eauto.
Qed.
Lemma follows_skip_2 t h : Forall (fun e => who e <> t) h -> forall p, follows t p h p.
Proof. induction 1 as [|e h He Hh IH]; intros p; [constructor|]. apply fo_other; [done|apply IH]. Qed.

(** At some instant of the thread's current call the object satisfied [P]. *)
Definition seen h t o (P : obj -> Prop) : Prop :=
  exists h1 h2 a, h = h1 ++ h2 /\ legal a0 h1 a /\ follows t Out h1 (Called o) /\
    Forall (fun e => who e <> t) h2 /\ P a.
Lemma seen_now h t o (P : obj -> Prop) a : legal a0 h a -> follows t Out h (Called o) -> P a -> seen h t o P.
Proof. intros L F Pa. exists h, [], a. rewrite app_nil_r. done. Qed.
Lemma seen_mono h t o (P Q : obj -> Prop) : (forall a, P a -> Q a) -> seen h t o P -> seen h t o Q.
Proof. intros PQ (h1 & h2 & a & ? & ? & ? & ? & ?). exists h1, h2, a. auto 10. Qed.
Lemma seen_app h t o P e : who e <> t -> seen h t o P -> seen (h ++ [e]) t o P.
Proof.
  intros N (h1 & h2 & a & -> & L & F & A & Pa). exists h1, (h2 ++ [e]), a. rewrite app_assoc.
  do 3 (split; [done|]). split; [|done]. apply Forall_app. split; [done|]. by constructor.
Qed.

(** History extensions made by a step of the thread [t]. *)
Record ext t h h' : Prop := {
  ex_erase : erase h' = erase h;
  ex_seen : forall u o P, u <> t -> seen h u o P -> seen h' u o P;
  ex_follows : forall u p, u <> t -> follows u Out h p -> follows u Out h' p }.
Lemma ext_refl t h : ext t h h.
Proof. by constructor. Qed.
Lemma ext_lin t h o r : ext t h (h ++ [HLin t o r]).
Proof.
  split.
  - unfold erase. rewrite omap_app. simpl. by rewrite app_nil_r.
  - intros. by apply seen_app.
  - intros. by apply follows_other.
Qed.
(** An operation without effect takes place where its answer was right. *)
Lemma pure_lin t h o r a : legal a0 h a -> seen h t o (fun x => allowed cmp strict o r x x) ->
  exists h', ext t h h' /\ legal a0 h' a /\ follows t Out h' (Taken r).
Proof.
  intros L (h1 & h2 & x & -> & L1 & F & A & Al).
  exists (h1 ++ HLin t o r :: h2).
  apply legal_app in L as (x' & L1' & L2). assert (x' = x) as -> by (eapply legal_det; eauto).
  split; [|split].
  - split.
    + unfold erase. by rewrite !omap_app.
    + intros u o' P N (g1 & g2 & y & E & Lg & Fg & Ag & Py).
      apply app_eq_app in E as [l [[-> ->]|[-> ->]]].
      * exists g1, (l ++ HLin t o r :: h2), y. rewrite <-app_assoc. do 3 (split; [done|]).
        apply Forall_app in Ag as [Ag1 Ag2]. split; [|done]. apply Forall_app. split; [done|]. by constructor.
      * exists (h1 ++ HLin t o r :: l), g2, y. rewrite <-app_assoc. split; [done|].
        split; [|split; [by apply follows_insert|done]].
        apply legal_app in Lg as (x' & Lg1 & Lg2). assert (x' = x) as -> by (eapply legal_det; eauto).
        apply legal_app. exists x. split; [done|]. econstructor; eauto.
    + intros u p N Fu. by apply follows_insert.
  - apply legal_app. exists x. split; [done|]. econstructor; eauto.
  - apply follows_app. exists (Called o). split; [done|]. constructor. by apply follows_skip_2.
Qed.
End hist.
