(** Unless a removal starts over, every call updates the tree at most once. *)
From Coq Require Import List Arith Bool Lia.
From Verif Require Import TcModel TcRoute TcSpec TcOps TcInv TcRun TcLin TcLins.
Import ListNotations.

(** The updates that the call [t] has done, the newest first. *)
Definition mine {K V} (t : nat) (e : ev K V) : bool := match e with EIns u _ _ | ERem u _ => u =? t end.
Definition updates {K V} (s : st K V) (t : nat) : list (ev K V) := filter (mine t) (log s).
(** A removal that has emptied a leaf finds the root locked and starts over. *)
Definition again {K V} (a : act K V) : Prop := match a with ARetry _ => True | _ => False end.

Section once.
Context {K V : Type} (leb : K -> K -> bool).
Notation st := (st K V).
Notation op := (op K V).
Notation act := (act K V).
Implicit Types (s : st) (p : op) (t : nat) (l : list act).

Definition ovr p : Prop := pc p = PClean \/ exists r e, pc p = PDone r e.
Record Once s : Prop := {
  n_ev : forall t i a, ev_i (log s) i = Some a -> by_call t a -> exists p, ops s t = Some p /\ ovr p;
  n_one : forall t i j a b, ev_i (log s) i = Some a -> ev_i (log s) j = Some b -> by_call t a -> by_call t b -> i = j }.

Definition nxt s t p s' : Prop :=
  exists p', (forall u, ops s' u = if u =? t then Some p' else ops s u)
    /\ (forall r e, pc p <> PDone r e)
    /\ ((log s' = log s /\ (pc p = PClean -> ovr p')) \/
        (exists e, log s' = e :: log s /\ by_call t e /\ pc p <> PClean /\ ovr p')).
Lemma nxt_1 s t p s' c s1 : ops s1 = ops s -> Some (with_op s1 t c) = Some s' ->
  (forall r e, pc p <> PDone r e) ->
  (log s1 = log s /\ (pc p = PClean -> ovr c)) \/ (exists e, log s1 = e :: log s /\ by_call t e /\ pc p <> PClean /\ ovr c) ->
  nxt s t p s'.
Proof. intros Eo [= <-] B C. exists c. cbn. rewrite Eo. repeat split; auto. Qed.
Lemma once_op a s t p s' : ops s t = Some p -> ~ again a -> step_op leb a s t p = Some s' -> nxt s t p s'.
Proof.
  intros E R H. destruct a; try discriminate H; try (destruct R; exact Logic.I); destruct (pc p) eqn:P; cbn [step_op] in H; rewrite ?P in H; try discriminate H.
  all: try (revert H; cbn; unfold fin, goto; repeat match goal with |- match ?x with _ => _ end = _ -> _ => destruct x eqn:? | |- (if ?x then _ else _) = _ -> _ => destruct x eqn:? end;
    try discriminate; intros H; refine (nxt_1 _ _ _ _ _ _ _ H _ _); cbn; try congruence; auto; rewrite ?P; unfold ovr; cbn;
    try (left; split; [reflexivity|]; (discriminate || eauto; fail)); right; eexists; repeat split; eauto; discriminate).
  cbn in H. destruct (kind p) eqn:Ek; try discriminate. destruct (root s); [discriminate|]. injection H as <-.
  exists p. cbn. rewrite P. repeat split; auto; try (intros; congruence).
  - intros u. destruct (Nat.eqb_spec u t) as [->|]; auto.
  - left. split; auto. discriminate.
Qed.
Lemma once_keep s s' : Once s -> ops s' = ops s -> log s' = log s -> Once s'.
Proof. intros [A B] E1 E2. constructor; unfold returned in *; rewrite ?E1, ?E2; auto. Qed.
Lemma once_step a s s' : ~ again a -> Once s -> step leb a s = Some s' -> Once s'.
Proof.
  intros R I H. pose proof I as [A B]. unfold step in H. destruct (err s); [discriminate|].
  destruct (actor a) as [t|] eqn:Ac.
  - assert (match ops s t with Some p => step_op leb a s t p | None => None end = Some s') as H'
      by (destruct a; try discriminate Ac; rewrite <- H; congruence). clear H.
    destruct (ops s t) as [p|] eqn:E; [|discriminate].
    apply once_op in H' as (p' & Eo & Nd & D); auto.
    assert (forall u p, ops s u = Some p -> ovr p -> u <> t \/ pc p = PClean) as Q.
    { intros u q Eq Oq. destruct (Nat.eq_dec u t) as [->|]; auto. right. assert (q = p) as -> by congruence.
      destruct Oq as [|(r & e & P)]; auto. now destruct (Nd r e). }
    constructor.
    + intros u i x Hx Bx. rewrite Eo. destruct D as [[El Dl]|(e & El & Be & Nc & Op)]; rewrite El in Hx.
      * destruct (A u i x Hx Bx) as (q & Eq & Oq). destruct (Nat.eqb_spec u t) as [->|]; [|eauto].
        exists p'. split; auto. apply Dl. assert (q = p) as -> by congruence. destruct (Q _ _ E Oq); [congruence|auto].
      * apply ev_cons in Hx as [[_ Hx]|[-> ->]].
        -- destruct (A u i x Hx Bx) as (q & Eq & Oq). destruct (Nat.eqb_spec u t) as [->|]; eauto.
        -- assert (u = t) as -> by (destruct e; cbn in *; congruence). rewrite Nat.eqb_refl. eauto.
    + intros u i j x y Hx Hy Bx By. destruct D as [[El Dl]|(e & El & Be & Nc & Op)]; rewrite El in *; [eauto|].
      assert (forall k z, ev_i (log s) k = Some z -> by_call t z -> False) as N.
      { intros k z Hz Bz. destruct (A _ _ _ Hz Bz) as (q & Eq & Oq). assert (q = p) as -> by congruence. destruct (Q _ _ E Oq); congruence. }
      apply ev_cons in Hx as [[_ Hx]|[-> ->]], Hy as [[_ Hy]|[-> ->]]; eauto; exfalso.
      * assert (u = t) as -> by (destruct e; cbn in *; congruence). eauto.
      * assert (u = t) as -> by (destruct e; cbn in *; congruence). eauto.
  - destruct a; try discriminate Ac.
    1: { destruct (ops s t) eqn:E; [discriminate|]. injection H as <-. constructor; cbn; auto.
      - intros u i x Hx Bx. destruct (A u i x Hx Bx) as (p & Ep & Op). exists p. unfold upd. destruct (Nat.eqb_spec u t) as [->|]; auto. congruence. }
    all: apply ops_sys in H as [H1 H2]; auto; [|intros ? ?; discriminate]; apply (once_keep s); auto.
Qed.
Lemma once_init : Once init.
Proof.
  constructor; cbn.
  - intros t i a Hx. destruct i; discriminate.
  - intros t i j a b Hx. destruct i; discriminate.
Qed.
Lemma once_run l : forall s s', Forall (fun a => ~ again a) l -> Once s -> run leb l s = Some s' -> Once s'.
Proof.
  induction l as [|a l IH]; intros s s' F I H; cbn in H; [congruence|]. inversion F; subst.
  destruct (step leb a s) as [s1|] eqn:E; [|discriminate]. eapply IH; [| |eauto]; auto. eapply once_step; eauto.
Qed.

Lemma mine_call t (e : ev K V) : mine t e = true <-> by_call t e.
Proof. destruct e; cbn; apply Nat.eqb_eq. Qed.
Lemma filt_one (f : ev K V -> bool) lg :
  (forall i j a b, ev_i lg i = Some a -> ev_i lg j = Some b -> f a = true -> f b = true -> i = j) ->
  length (filter f lg) <= 1.
Proof.
  induction lg as [|e lg IH]; intros H; cbn; [lia|].
  assert (forall i a, ev_i lg i = Some a -> ev_i (e :: lg) i = Some a /\ i < length lg) as U.
  { intros i a Hi. unfold ev_i in *. cbn. assert (i < length lg) by (rewrite <- rev_length; apply nth_error_Some; congruence).
    split; auto. rewrite nth_error_app1; auto. now rewrite rev_length. }
  assert (ev_i (e :: lg) (length lg) = Some e) as L.
  { unfold ev_i. cbn. rewrite nth_error_app2 by (rewrite rev_length; auto). now rewrite rev_length, Nat.sub_diag. }
  destruct (f e) eqn:F.
  - destruct (filter f lg) as [|x r] eqn:E; [cbn; lia|]. exfalso.
    assert (In x lg /\ f x = true) as [Hx Fx] by (apply filter_In; rewrite E; left; auto).
    apply in_rev, In_nth_error in Hx as [i Hi]. destruct (U i x Hi) as [Hi' Li].
    specialize (H i (length lg) x e Hi' L Fx F). lia.
  - apply IH. intros i j a b Ha Hb. destruct (U _ _ Ha), (U _ _ Hb). eauto.
Qed.
Lemma in_updates s t (e : ev K V) : In e (updates s t) <-> (exists i, ev_i (log s) i = Some e) /\ by_call t e.
Proof.
  unfold updates. rewrite filter_In, mine_call. unfold ev_i. split; intros [A B]; split; auto.
  - apply in_rev in A. now apply In_nth_error in A.
  - destruct A as [i A]. apply nth_error_In in A. now apply in_rev.
Qed.
Lemma once_calls (HO : tord leb) l s : Forall (fun a => ~ again a) l -> run leb l init = Some s ->
  forall t p, ops s t = Some p -> length (updates s t) <= 1
  /\ (forall k cond, kind p = ORem k cond ->
       (returned s t (RRem true) -> updates s t = [ERem t k]) /\ (returned s t (RRem false) -> updates s t = [])).
Proof.
  intros F H t p Hp. pose proof (once_run l _ _ F once_init H) as U.
  pose proof (inv_run leb HO l _ _ (inv_init leb) H) as I.
  assert (length (updates s t) <= 1) as L.
  { apply filt_one. intros i j a b Ha Hb Ma Mb. apply mine_call in Ma, Mb. eapply n_one; eauto. }
  split; auto. intros k cond Hk. split; intros (q & e & Eq & Pq); assert (q = p) as -> by congruence;
    pose proof (o_log _ _ _ _ _ _ (i_op _ _ I t p Hp)) as X; rewrite Pq, Hk in X; cbn in X; destruct X as [_ X].
  - destruct X as [(i & _ & Hi) _]. assert (In (ERem t k) (updates s t)) as In1 by (apply in_updates; split; eauto; cbn; auto).
    destruct (updates s t) as [|x [|y r]]; cbn in *; [tauto| |lia]. destruct In1 as [->|[]]; auto.
  - destruct X as [X _]. destruct (updates s t) as [|x r] eqn:E; auto. exfalso.
    assert (In x (updates s t)) as [[i Hi] Hx]%in_updates by (rewrite E; left; auto). eapply X; eauto.
Qed.
End once.
