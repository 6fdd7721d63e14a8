(** Linearizability of the TreeIndex. *)
From Coq Require Import List Arith Bool.
From Verif Require Import TcModel TcRoute TcSpec TcInv TcRun TcLin TcLins TcOne TcOnce TcWit.
Import ListNotations.

Lemma lC55_refuted : exists (l : list (act nat nat)) s, run Nat.leb l init = Some s /\ ~ linearizable Nat.leb true l s.
Proof. exists w3. exact wit_not_lin. Qed.

Section thms.
Context {K V : Type} (leb : K -> K -> bool) (HO : tord leb).
Lemma lC55_strict (l : list (act K V)) s : Forall (fun a => ~ race a) l -> run leb l init = Some s -> linearizable leb true l s.
Proof. exact (lin_strict leb HO l s). Qed.
Lemma lC55_loose (l : list (act K V)) s : run leb l init = Some s -> linearizable leb false l s.
Proof. intros H. apply lin_gen; auto; discriminate. Qed.
Lemma lC55_no_panic (l : list (act K V)) s : run leb l init = Some s -> err s = false.
Proof. intros H. exact (i_err _ _ (inv_run leb HO l _ _ (inv_init leb) H)). Qed.
Lemma lC31_once (l : list (act K V)) s : Forall (fun a => ~ again a) l -> run leb l init = Some s ->
  forall t p k cond, ops s t = Some p -> kind p = ORem k cond ->
    length (updates s t) <= 1
    /\ (returned s t (RRem true) -> updates s t = [ERem t k])
    /\ (returned s t (RRem false) -> updates s t = []).
Proof. intros F H t p k cond Hp Hk. destruct (once_calls leb HO l s F H t p Hp) as [A B]. split; auto. eapply B; eauto. Qed.
End thms.

(** ** A run with a split *)
(** Calls 0 and 1 insert the keys 1 and 2.  Call 2 looks up the key 2 and stops before it reads the
    leaf.  Call 3 finds the leaf full, splits it and inserts the key 3.  Call 4 removes the key 2 from
    the new leaf.  Then call 2 reads the old leaf. *)
Definition ex1 : list (act nat nat) :=
  [AInv 0 (OIns 1 10); AInst 0] ++ go 0 ++ [AInv 1 (OIns 2 20)] ++ go 1
  ++ [AInv 2 (OPeek 2); ARoot 2; AMeta 2; ALoad 2; AVal 2]
  ++ [AInv 3 (OIns 3 30); ARoot 3; AMeta 3; ALoad 3; AVal 3; ALeaf 3 true; SLock 3 0; SFrz 0 PUb (Some 1); SIns 0; SThaw 0; SSwap 0; SUnlock 0]
  ++ [ABack 3 0; AMeta 3; ALoad 3; AVal 3; ALeaf 3 false]
  ++ [AInv 4 (ORem 2 always)] ++ go 4 ++ [ALeaf 2 false; AInv 5 (OPeek 2)] ++ go 5.
Lemma ex1_ok : exists s, run Nat.leb ex1 init = Some s /\ Forall (fun a => ~ race a) ex1
  /\ map (stat s) [2; 3; 4; 5] =
     [Some (PDone (RVal (Some 20)) 4); Some (PDone (RIns true) 3); Some (PDone (RRem true) 4); Some (PDone (RVal None) 4)].
Proof.
  exists (fin_of ex1). split; [apply fin_run; vm_compute; reflexivity|]. split; [|vm_compute; reflexivity].
  unfold ex1, go. cbn [app]. repeat constructor; cbn; tauto.
Qed.
Lemma nat_tord : tord Nat.leb.
Proof.
  constructor; intros *; rewrite ?Nat.leb_le.
  - apply Nat.le_ge_cases.
  - apply Nat.le_trans.
  - apply Nat.le_antisymm.
Qed.
(** The orders of the calls are not all alike: in the run of the refutation, call 1 counts twice. *)
Lemma wit_loose : exists s, run Nat.leb w3 init = Some s /\ linearizable Nat.leb false w3 s /\ ~ linearizable Nat.leb true w3 s.
Proof.
  destruct wit_not_lin as (s & H & N). exists s. split; auto. split; auto. apply lC55_loose; auto. exact nat_tord.
Qed.

(** The removal of the run above has removed one entry; the one of the refutation, two. *)
Lemma ex1_once : exists s p, run Nat.leb ex1 init = Some s /\ Forall (fun a => ~ again a) ex1
  /\ ops s 4 = Some p /\ kind p = ORem 2 always /\ returned s 4 (RRem true) /\ updates s 4 = [ERem 4 2].
Proof.
  exists (fin_of ex1). eexists. split; [apply fin_run; vm_compute; reflexivity|].
  split; [unfold ex1, go; cbn [app]; repeat constructor; cbn; tauto|].
  split; [vm_compute; reflexivity|]. split; [reflexivity|]. split; [|vm_compute; reflexivity].
  eapply stat_ret. vm_compute. reflexivity.
Qed.
Lemma w3_twice : exists s, run Nat.leb w3 init = Some s /\ updates s 1 = [ERem 1 1; ERem 1 1].
Proof. exists (fin_of w3). split; [apply wit_run|vm_compute; reflexivity]. Qed.
