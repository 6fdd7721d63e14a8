(** A schedule for the examples. *)
From Coq Require Import NArith.
From stdpp Require Import prelude list numbers.
From Verif Require Import PeekModel PeekSpec PeekWit PeekWit2 PkSpec.

Definition is_rem (x : nat * write N N) : bool := match x.2 with WRem _ _ => true | _ => false end.
Definition removes (x : obj N N) (th : thread N N) : bool :=
  match work th with Write w => bool_decide (x.1 ∈ mine w) && existsb is_rem (todo w) | _ => false end.
Definition works (x : obj N N) (th : thread N N) : bool :=
  match work th with Write w => bool_decide (x.1 ∈ mine w) | _ => false end.
Lemma none_removes s x : forallb (fun th => negb (removes x th)) (threads s) = true -> ~ removing s x.
Proof.
  intros F (t & th & w & h & n & m & Et & Wt & M & R). rewrite forallb_forall in F.
  assert (negb (removes x th) = true) as A by (apply F, elem_of_list_In; by eapply elem_of_list_lookup_2).
  unfold removes in A. rewrite Wt in A. rewrite bool_decide_eq_true_2 in A by done. cbn in A. apply negb_true_iff in A.
  assert (existsb is_rem (todo w) = true) as B; [|congruence]. apply existsb_exists. exists (h, WRem n m). split; [by apply elem_of_list_In|done].
Qed.
Lemma none_works s x : forallb (fun th => negb (works x th)) (threads s) = true -> ~ busy s x.
Proof.
  intros F (t & th & w & Et & Wt & M). rewrite forallb_forall in F.
  assert (negb (works x th) = true) as A by (apply F, elem_of_list_In; by eapply elem_of_list_lookup_2).
  unfold works in A. rewrite Wt in A. by rewrite bool_decide_eq_true_2 in A.
Qed.

(** The first read finds the entry before its insertion has stored the length; a resize begins, the entry is
    moved, and another read is called. *)
Definition found0 : list act :=
  Eval vm_compute in schedule (init 3) [One (ACreate 1); ins 1 0; One (AGuard 1); One (AGuard 2); One (APeek 1 2%N)].
Definition found1 : list act :=
  Eval vm_compute in schedule (reach 3 found0) [More 1 3; Do (AOp 0 (OMark 0 0 0 0)) 0; One (AOp 0 (OInsert 0 2%N 9%N)); More 0 3; Rest 1].
Definition found2 : list act :=
  Eval vm_compute in schedule (reach 3 (found0 ++ found1)) [Rest 0; One (AResize 2); One (AFreeze 0); Do (AOp 0 (OMove 0 0 1)) 0; One (APeek 2 2%N)].
Definition found3 : list act := Eval vm_compute in schedule (reach 3 (found0 ++ found1 ++ found2)) [Rest 2].

(** A read of a key that is being updated: the new version is inserted while the reader is under way, the removal of the old one has not begun. *)
Definition either (s : st) (x y : obj N N) : bool := every (fun z => negb (okey z =? okey x)%N || bool_decide (z = x) || bool_decide (z = y)) s.
Lemma either_only s x y : either s x y = true -> forall z, stored s z -> okey z = okey x -> z = x \/ z = y.
Proof.
  intros A z Sz Kz. pose proof (every_stored _ _ _ A Sz) as H. cbn in H. rewrite Kz, N.eqb_refl in H. cbn in H.
  apply orb_prop in H as [H|H]; apply bool_decide_eq_true in H; auto.
Qed.
Definition upd_acts : list act := Eval vm_compute in schedule (reach 3 call_acts) [More 1 2; ins 1 7; Rest 1].
