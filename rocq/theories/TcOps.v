(** What the calls in progress know about the tree. *)
From Coq Require Import List Arith Bool Lia.
From Verif Require Import TcModel TcRoute TcSpec TcInv TcTree TcFrame TcJobs TcFz TcFzs TcExt TcSys.
Import ListNotations.

Section log.
Context {K V : Type} (leb : K -> K -> bool).
Notation hist := (list (ev K V)).
Implicit Types (lg l : hist) (t i j b : nat).

Lemma at_len lg : at_i lg (length lg) = lg.
Proof. unfold at_i. now rewrite Nat.sub_diag. Qed.
Lemma at_app l lg i : i <= length lg -> at_i (l ++ lg) i = at_i lg i.
Proof.
  intros H. unfold at_i. rewrite app_length.
  replace (length l + length lg - i) with (length l + (length lg - i)) by lia.
  induction l as [|e l IH]; cbn; auto.
Qed.
Lemma at_cons e lg i : i <= length lg -> at_i (e :: lg) i = at_i lg i.
Proof. apply (at_app [e] lg i). Qed.
Lemma ev_len lg i e : ev_i lg i = Some e -> i < length lg.
Proof. intros H. unfold ev_i in H. rewrite <- rev_length. apply nth_error_Some. congruence. Qed.
Lemma ev_cons_old e lg i : i < length lg -> ev_i (e :: lg) i = ev_i lg i.
Proof. intros H. unfold ev_i. cbn. apply nth_error_app1. now rewrite rev_length. Qed.
Lemma ev_cons_new e lg : ev_i (e :: lg) (length lg) = Some e.
Proof. unfold ev_i. cbn. rewrite nth_error_app2; rewrite rev_length; auto. now rewrite Nat.sub_diag. Qed.
Lemma ev_cons e lg i a : ev_i (e :: lg) i = Some a -> (i < length lg /\ ev_i lg i = Some a) \/ (i = length lg /\ a = e).
Proof.
  intros H. pose proof (ev_len _ _ _ H) as L. cbn in L. destruct (Nat.eq_dec i (length lg)) as [->|N].
  - rewrite ev_cons_new in H. right. split; congruence.
  - left. rewrite ev_cons_old in H by lia. split; auto. lia.
Qed.
Lemma quiet_cons e lg t : quiet lg t -> ~ by_call t e -> quiet (e :: lg) t.
Proof. intros Q N i a H. apply ev_cons in H as [[_ H]|[_ ->]]; auto. eapply Q; eauto. Qed.
Lemma explains_cons e lg t q b e1 r : explains leb lg t q b e1 r -> ~ by_call t e -> explains leb (e :: lg) t q b e1 r.
Proof.
  intros [B H] N. split; [cbn; lia|].
  assert (forall j a, ev_i (e :: lg) j = Some a -> by_call t a -> ev_i lg j = Some a) as Q.
  { intros j a Hj Ha. apply ev_cons in Hj as [[_ Hj]|[_ ->]]; auto. tauto. }
  destruct q as [k|k v|k cond], r as [v'|[]| |[]]; try tauto.
  - destruct H as (H1 & i & Hi & H2). split; [now apply quiet_cons|]. exists i. rewrite at_cons by lia. auto.
  - destruct H as (i & Hi & H1 & H2). exists i. rewrite ev_cons_old by lia. eauto.
  - destruct H as (H1 & i & Hi & H2). split; [now apply quiet_cons|]. exists i. rewrite at_cons by lia. auto.
  - now apply quiet_cons.
  - destruct H as ((i & Hi & H1) & H2). split; [|eauto]. exists i. rewrite ev_cons_old by lia. auto.
  - destruct H as (H1 & i & Hi & H2). split; [now apply quiet_cons|]. exists i. rewrite at_cons by lia. auto.
Qed.

(** The key had the value at some instant since [b]. *)
Definition Seen lg b (k : K) (v : option V) : Prop := exists i, b <= i <= length lg /\ abs leb (at_i lg i) k = v.
Lemma seen_app l lg b k v : Seen lg b k v -> Seen (l ++ lg) b k v.
Proof. intros (i & Hi & E). exists i. rewrite app_length, at_app by lia. split; auto. lia. Qed.
Lemma seen_now lg b k : b <= length lg -> Seen lg b k (abs leb lg k).
Proof. intros H. exists (length lg). rewrite at_len. auto. Qed.
End log.

Section good.
Context {K V : Type} (leb : K -> K -> bool) (HO : tord leb).
Notation heap := (nat -> obj K V).
Notation nxt := (nxt leb).
Notation On := (On leb).
Notation Live := (Live leb).
Notation HInv := (HInv leb).
Implicit Types (k s m : K) (x y z u v w p a : nat) (h : heap).

(** What a call for [k] that began at the instant [b] may conclude at [x] is right. *)
Inductive Good h r lg b k : nat -> Prop :=
| G_on x : On h r k x -> Good h r lg b k x
| G_leaf x : closed (h x) -> lvl (h x) = 0 -> Seen leb lg b k (get leb (ents (h x)) k) -> Good h r lg b k x
| G_none x : closed (h x) -> lvl (h x) <> 0 -> nxt h x k = None -> Seen leb lg b k None -> Good h r lg b k x
| G_node x z : closed (h x) -> lvl (h x) <> 0 -> nxt h x k = Some z -> Good h r lg b k z -> Good h r lg b k x.

Lemma closed_lt h f y : FInv h f -> closed (h y) -> y < f.
Proof.
  intros FI C. destruct (Nat.lt_ge_cases y f) as [|G]; auto. rewrite (f_blank _ _ FI y G) in C.
  destruct C; discriminate.
Qed.

Section step.
Context (h : heap) (f : nat) (r : option nat) (lg : list (ev K V)) (HI : HInv h f r lg) (FI : FInv h f).
Lemma good_lt b k x : Good h r lg b k x -> x < f.
Proof. intros [y H|y C|y C|y z C]; eauto using closed_lt. eapply on_lt; eauto. Qed.
Lemma good_nxt b k x z : Good h r lg b k x -> nxt h x k = Some z -> Good h r lg b k z.
Proof.
  intros G E. pose proof (good_lt _ _ _ G) as Hx. destruct G as [y H|y C L S|y C L N S|y z' C L N G].
  - apply G_on. eapply On_step; eauto.
  - apply nxt_kid in E. destruct (kid_lvl leb h f r lg HI y z Hx E). lia.
  - congruence.
  - congruence.
Qed.
Lemma good_leaf b k x : b <= length lg -> Good h r lg b k x -> lvl (h x) = 0 -> Seen leb lg b k (get leb (ents (h x)) k).
Proof.
  intros B G L. destruct G as [y H|y C _ S|y C L' N S|y z' C L' N G]; try tauto.
  rewrite (h_abs1 _ _ _ _ _ HI _ _ H L). now apply seen_now.
Qed.
Lemma good_none b k x : b <= length lg -> Good h r lg b k x -> lvl (h x) <> 0 -> nxt h x k = None -> Seen leb lg b k None.
Proof.
  intros B G L E. destruct G as [y H|y C L' S|y C _ N S|y z' C _ N G]; try tauto; [|congruence].
  rewrite <- (no_leaf_abs leb h f r lg HI k y H E L). now apply seen_now.
Qed.
Lemma good_root b k n : r = Some n -> Good h r lg b k n.
Proof. intros E. apply G_on. now constructor. Qed.

Context (h' : heap) (f' : nat) (r' : option nat) (l : list (ev K V)) (X : Ext leb h f r h' f' r').
Lemma good_step b k x : b <= length lg -> Good h r lg b k x -> Good h' r' (l ++ lg) b k x.
Proof.
  intros B. remember (lvl (h x)) as d eqn:Ed. revert x Ed. induction d as [d IH] using lt_wf_ind. intros x Ed G.
  pose proof (good_lt _ _ _ G) as Hx.
  assert (forall z, nxt h x k = Some z -> Good h r lg b k z -> Good h' r' (l ++ lg) b k z) as IH'.
  { intros z E Gz. apply nxt_kid in E. destruct (kid_lvl leb h f r lg HI x z Hx E) as [L _]. apply (IH (lvl (h z))); auto. lia. }
  assert (closed (h' x) /\ same (h' x) (h x) -> Good h' r' (l ++ lg) b k x) as Q.
  { intros [C S]. assert (nxt h' x k = nxt h x k) as En by now apply same_nx.
    pose proof S as (Sl & Se & _). destruct (Nat.eq_dec (lvl (h x)) 0) as [L|L].
    - apply G_leaf; auto; [congruence|]. rewrite Se. apply seen_app. now apply good_leaf.
    - assert (lvl (h' x) <> 0) as L' by congruence.
      destruct (nxt h x k) as [z|] eqn:Ez.
      + apply (G_node _ _ _ _ _ x z); auto. apply IH'; auto. eapply good_nxt; eauto.
      + apply G_none; auto. apply seen_app. eapply good_none; eauto. }
  destruct G as [y H|y C L S|y C L N S|y z C L N G].
  - destruct (x_on _ _ _ _ _ _ _ X k y H); auto. now apply G_on.
  - apply Q. now apply (x_cl _ _ _ _ _ _ _ X).
  - apply Q. now apply (x_cl _ _ _ _ _ _ _ X).
  - apply Q. now apply (x_cl _ _ _ _ _ _ _ X).
Qed.
End step.
End good.
