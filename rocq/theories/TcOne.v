(** Without the two races, every call updates the tree at most once and no insertion reports a
    duplicate for no reason. *)
From Coq Require Import List Arith Bool Lia.
From Verif Require Import TcModel TcRoute TcSpec TcOps TcRun TcLin TcLins.
Import ListNotations.

Section one.
Context {K V : Type} (leb : K -> K -> bool).
Notation st := (st K V).
Notation op := (op K V).
Notation act := (act K V).
Implicit Types (s : st) (p : op) (t : nat) (l : list act).

(** The two races: a removal that finds the root locked after it has emptied a leaf starts over, and
    an insertion that is overtaken by the rollback of a split. *)
Definition race (a : act) : Prop := match a with ARetry _ | ASpur _ => True | _ => False end.

Definition over_ p : Prop := pc p = PClean \/ exists r e, pc p = PDone r e.
Record One s : Prop := {
  u_ev : forall t i a, ev_i (log s) i = Some a -> by_call t a -> exists p, ops s t = Some p /\ over_ p;
  u_one : forall t i j a b, ev_i (log s) i = Some a -> ev_i (log s) j = Some b -> by_call t a -> by_call t b -> i = j;
  u_spur : forall t, ~ returned s t RSpur }.

Definition next1 s t p s' : Prop :=
  exists p', (forall u, ops s' u = if u =? t then Some p' else ops s u)
    /\ (forall e, pc p' = PDone RSpur e -> False) /\ (forall r e, pc p <> PDone r e)
    /\ ((log s' = log s /\ (pc p = PClean -> over_ p')) \/
        (exists e, log s' = e :: log s /\ by_call t e /\ pc p <> PClean /\ over_ p')).
Lemma next_1 s t p s' c s1 : ops s1 = ops s -> Some (with_op s1 t c) = Some s' ->
  (forall e, pc c = PDone RSpur e -> False) -> (forall r e, pc p <> PDone r e) ->
  (log s1 = log s /\ (pc p = PClean -> over_ c)) \/ (exists e, log s1 = e :: log s /\ by_call t e /\ pc p <> PClean /\ over_ c) ->
  next1 s t p s'.
Proof. intros Eo [= <-] A B C. exists c. cbn. rewrite Eo. repeat split; auto. Qed.
Lemma one_op a s t p s' : (forall e, pc p <> PDone RSpur e) -> ops s t = Some p -> ~ race a -> step_op leb a s t p = Some s' -> next1 s t p s'.
Proof.
  intros Np E R H. destruct a; try discriminate H; try (destruct R; exact Logic.I); destruct (pc p) eqn:P; cbn [step_op] in H; rewrite ?P in H; try discriminate H.
  all: try (revert H; cbn; unfold fin, goto; repeat match goal with |- match ?x with _ => _ end = _ -> _ => destruct x eqn:? | |- (if ?x then _ else _) = _ -> _ => destruct x eqn:? end;
    try discriminate; intros H; refine (next_1 _ _ _ _ _ _ _ H _ _ _); cbn; try congruence; auto; rewrite ?P; unfold over_; cbn;
    try (left; split; [reflexivity|]; (discriminate || eauto; fail)); right; eexists; repeat split; eauto; discriminate).
  cbn in H. destruct (kind p) eqn:Ek; try discriminate. destruct (root s); [discriminate|]. injection H as <-.
  exists p. cbn. rewrite P. repeat split; auto; try (intros; congruence).
  - intros u. destruct (Nat.eqb_spec u t) as [->|]; auto.
  - left. split; auto. discriminate.
Qed.
Lemma one_keep s s' : One s -> ops s' = ops s -> log s' = log s -> One s'.
Proof. intros [A B C] E1 E2. constructor; unfold returned in *; rewrite ?E1, ?E2; auto. Qed.
Lemma one_step a s s' : ~ race a -> One s -> step leb a s = Some s' -> One s'.
Proof.
  intros R I H. pose proof I as [A B C]. unfold step in H. destruct (err s); [discriminate|].
  destruct (actor a) as [t|] eqn:Ac.
  - assert (match ops s t with Some p => step_op leb a s t p | None => None end = Some s') as H'
      by (destruct a; try discriminate Ac; rewrite <- H; congruence). clear H.
    destruct (ops s t) as [p|] eqn:E; [|discriminate].
    apply one_op in H' as (p' & Eo & Ns & Nd & D); auto; [|intros e P; apply (C t); exists p, e; auto].
    assert (forall u p, ops s u = Some p -> over_ p -> u <> t \/ pc p = PClean) as Q.
    { intros u q Eq Oq. destruct (Nat.eq_dec u t) as [->|]; auto. right. assert (q = p) as -> by congruence.
      destruct Oq as [|(r & e & P)]; auto. now destruct (Nd r e). }
    constructor.
    + intros u i x Hx Bx. rewrite Eo. destruct D as [[El Dl]|(e & El & Be & Nc & Op)]; rewrite El in Hx.
      * destruct (A u i x Hx Bx) as (q & Eq & Oq). destruct (Nat.eqb_spec u t) as [->|]; [|eauto].
        exists p'. split; auto. apply Dl. assert (q = p) as -> by congruence. destruct (Q _ _ E Oq); [congruence|auto].
      * apply ev_cons in Hx as [[_ Hx]|[-> ->]].
        -- destruct (A u i x Hx Bx) as (q & Eq & Oq). destruct (Nat.eqb_spec u t) as [->|]; eauto.
        -- assert (u = t) as -> by (destruct e; cbn in *; congruence). rewrite Nat.eqb_refl. eauto.
    + intros u i j x y Hx Hy Bx By. destruct D as [[El Dl]|(e & El & Be & Nc & Op)]; rewrite El in *; [eauto|].
      assert (forall k z, ev_i (log s) k = Some z -> by_call t z -> False) as N.
      { intros k z Hz Bz. destruct (A _ _ _ Hz Bz) as (q & Eq & Oq). assert (q = p) as -> by congruence. destruct (Q _ _ E Oq); congruence. }
      apply ev_cons in Hx as [[_ Hx]|[-> ->]], Hy as [[_ Hy]|[-> ->]]; eauto; exfalso.
      * assert (u = t) as -> by (destruct e; cbn in *; congruence). eauto.
      * assert (u = t) as -> by (destruct e; cbn in *; congruence). eauto.
    + intros u (q & e & Eq & Pq). rewrite Eo in Eq. destruct (Nat.eqb_spec u t) as [->|]; [|apply (C u); exists q, e; auto].
      injection Eq as <-. eapply Ns; eauto.
  - destruct a; try discriminate Ac.
    1: { destruct (ops s t) eqn:E; [discriminate|]. injection H as <-. constructor; cbn; auto.
      - intros u i x Hx Bx. destruct (A u i x Hx Bx) as (p & Ep & Op). exists p. unfold upd. destruct (Nat.eqb_spec u t) as [->|]; auto. congruence.
      - intros u (p & e & Ep & Pp). cbn in Ep. unfold upd in Ep. destruct (Nat.eqb_spec u t) as [->|]; [injection Ep as <-; discriminate|].
        apply (C u). exists p, e. auto. }
    all: apply ops_sys in H as [H1 H2]; auto; [|intros ? ?; discriminate]; apply (one_keep s); auto.
Qed.
Lemma one_init : One init.
Proof.
  constructor; cbn.
  - intros t i a Hx. destruct i; discriminate.
  - intros t i j a b Hx. destruct i; discriminate.
  - intros t (p & e & Ep & _). discriminate.
Qed.
Lemma one_run l : forall s s', Forall (fun a => ~ race a) l -> One s -> run leb l s = Some s' -> One s'.
Proof.
  induction l as [|a l IH]; intros s s' F I H; cbn in H; [congruence|]. inversion F; subst.
  destruct (step leb a s) as [s1|] eqn:E; [|discriminate]. eapply IH; [| |eauto]; auto. eapply one_step; eauto.
Qed.
Lemma lin_strict (HO : tord leb) l s : Forall (fun a => ~ race a) l -> run leb l init = Some s -> linearizable leb true l s.
Proof.
  intros F H. pose proof (one_run l _ _ F one_init H) as I. apply lin_gen; auto.
  - intros _. apply I.
  - intros _. apply I.
Qed.
End one.
