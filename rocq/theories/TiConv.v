(** The keys on the way to a node are an interval. *)
From Coq Require Import List Arith Bool Lia.
From Verif Require Import TcModel TcRoute TcSpec TcInv TcTree TcFrame TcJobs.
Import ListNotations.

Section conv.
Context {K V : Type} (leb : K -> K -> bool) (HO : tord leb).
Notation heap := (nat -> obj K V).
Notation pos := (pos leb).
Notation nxt := (nxt leb).
Notation On := (On leb).
Notation HInv := (HInv leb).
Notation look := (look leb).
Context (h : heap) (f : nat) (r : option nat) (lg : list (ev K V)) (HI : HInv h f r lg).

Fixpoint dist (es : list (K * nat)) (u : option nat) : Prop :=
  match es with
  | [] => True
  | e :: r => ~ In (snd e) (map snd r) /\ (u = Some (snd e) -> r = []) /\ dist r u
  end.
Lemma look_in es u k z : look es u k = Some z -> In z (map snd es) \/ u = Some z.
Proof.
  induction es as [|[s c] es IH]; cbn; auto. destruct (leb k s); [intros [= ->]; auto|]. intros E. destruct (IH E); auto.
Qed.
Lemma look_between es u k1 k2 k3 z : dist es u -> leb k1 k2 = true -> leb k2 k3 = true ->
  look es u k1 = Some z -> look es u k3 = Some z -> look es u k2 = Some z.
Proof.
  intros D L1 L2. induction es as [|[s c] es IH]; cbn in *; auto. destruct D as (D1 & D2 & D3).
  destruct (leb k1 s) eqn:E1.
  - intros [= ->]. destruct (leb k3 s) eqn:E3.
    + intros _. assert (leb k2 s = true) as -> by (eapply (t_trans _ HO); eauto). auto.
    + intros E. destruct (leb k2 s); auto. destruct (look_in _ _ _ _ E) as [?|Eu]; [tauto|]. rewrite (D2 Eu) in *. auto.
  - assert (leb k2 s = false) as E2. { destruct (leb k2 s) eqn:E2; auto. rewrite (t_trans _ HO k1 k2 s) in E1; auto. }
    assert (leb k3 s = false) as E3. { destruct (leb k3 s) eqn:E3; auto. rewrite (t_trans _ HO k2 k3 s) in E2; auto. }
    rewrite E2, E3. auto.
Qed.
Lemma dist_nd (cs : list (cell K)) u : NoDup (childs cs ++ match u with UTo c => [c] | _ => [] end) -> dist (map kc cs) (uto u).
Proof.
  induction cs as [|e cs IH]; cbn; auto. intros N. inversion N as [|? ? N1 N2]; subst. split; [|split]; auto.
  - intros H. apply N1. rewrite in_app_iff. left. rewrite map_map in H. exact H.
  - intros E. exfalso. apply N1. rewrite in_app_iff. right. destruct u; try discriminate. injection E as ->. now left.
Qed.
Lemma dist_cub (cs : list (cell K)) s j d : NoDup (childs (cs ++ [(s, (j, d))])) -> dist (map kc (cs ++ [(s, (j, d))])) (Some d).
Proof.
  induction cs as [|e cs IH]; cbn; auto. intros N. inversion N as [|? ? N1 N2]; subst. split; [|split]; auto.
  - intros H. apply N1. rewrite map_map in H. exact H.
  - intros [= E]. exfalso. apply N1. unfold childs. rewrite map_app, in_app_iff. right. left. exact E.
Qed.
Lemma nxt_between x k1 k2 k3 z : x < f -> leb k1 k2 = true -> leb k2 k3 = true ->
  nxt h x k1 = Some z -> nxt h x k3 = Some z -> nxt h x k2 = Some z.
Proof.
  intros Hx L1 L2. pose proof (h_wf _ _ _ _ _ HI x Hx) as W.
  destruct (w_wfc _ _ _ _ W) as (W1 & W2 & W3). unfold TcInv.nxt. rewrite !nx_look by auto.
  apply look_between; auto. pose proof (w_nd _ _ _ _ W) as N.
  destruct (jb (h x)); try (now apply dist_nd). destruct N as (N & pre & s & d & Hcs & Hu). rewrite Hu, Hcs in *.
  now apply dist_cub.
Qed.
Lemma conv k1 k2 k3 y : On h r k1 y -> On h r k3 y -> leb k1 k2 = true -> leb k2 k3 = true -> On h r k2 y.
Proof.
  intros H1. revert k3. induction H1 as [n E|u z H1 IH E]; intros k3 H3 L1 L2; [now constructor|].
  pose proof (on_lt leb h f r lg HI _ _ H1) as Hu.
  destruct (on_inv leb h r k3 z H3) as [Er|(v & Hv & E3)].
  - pose proof (on_root_lvl leb h f r lg HI k1 u z H1 Er). pose proof (nxt_lvl leb h f r lg HI _ _ _ H1 E). lia.
  - assert (u = v) as <- by (eapply (h_tree _ _ _ _ _ HI k1 k3); eauto).
    apply (On_step leb h r k2 u z); [eapply IH; eauto|]. eapply nxt_between; eauto.
Qed.
End conv.
